(** C17: a value written in the compact format is read back as a copy.  Reference: Extern_Spec, Compact_Spec. *)
From Verif Require Import Base ArrayLib Mem Io_Model Extern_Model Extern_Spec Extern_Tab Extern_Proofs Extern_In Extern_Props
  Compact_Model Compact_Spec Compact_Bytes Compact_Proofs.

(** the full claim: as round_trip of C16; [junk]: what the new block contains before it is filled *)
Definition compact_round_trip (m : memory) (G : list Z) (v : Z) : Prop :=
  forall fuel, (length G < fuel)%nat -> exists bytes, extern_compact_val m fuel v = Ret bytes /\
    forall m0 atoms alloc junk rest, atoms_ok m0 atoms -> alloc_ok m0 alloc -> (forall n, 0 <= n -> zlen (junk n) = n) ->
      exists v' m', intern_compact_val atoms alloc junk m0 (bytes ++ rest) = Ret (v', m', rest) /\
        copy_of m v m' v' /\ extends m0 m'.

(** proved for graphs of less than 2^28 words whose blocks have less than 2^22 fields.  Missing: blocks of 2^22
    fields and more (false, see below) *)
Theorem C17_round_trip_partial : forall m G v, graph m G -> ordinary m G -> value_in m G v -> words m G < 2 ^ 28 ->
  compact_round_trip m G v.
Proof.
  intros m G v GR ORD V W fuel F.
  assert (NW : forall a, In a G -> 0 <= sz m a) by (intros a Ha; apply (in_G m G GR) in Ha; lia).
  assert (SZB : forall a, In a G -> sz m a < 2 ^ 28).
  { intros a Ha. assert (I1 : incl [a] G) by (intros x [->|[]]; exact Ha).
    pose proof (words_incl m [a] G ltac:(repeat constructor; cbn; tauto) I1 NW) as X. rewrite whs_cons in X. change (whs m []) with 0 in X. lia. }
  assert (LG : zlen G < 2 ^ 32).
  { pose proof (length_le_whs m G G GR (fun x Hx => Hx)) as X. pose proof (words_incl m G G (g_nodup m G GR) (fun x Hx => Hx) NW). unfold zlen. lia. }
  assert (K0 : cok m G (C (alloc_table 2039) 0 0 0 []) []).
  { destruct (alloc_ok_tab 2039) as (T0 & L0 & O0 & M0); [lia|]. constructor; cbn [ctab ccnt c32 c64 cout]; auto; try lia.
    - change (zlen (@nil Z)) with 0. lia.
    - intros w o X. split; [intros Y; destruct (M0 w o X Y)|intros [[] _]].
    - intros w [].
    - constructor.
    - change (whs m []) with 0. lia. }
  assert (ALL := fun atoms start color num => sim_all m G GR ORD atoms start color num LG SZB fuel v _ [] K0 V ltac:(cbn; lia)).
  destruct (ALL 0 0 0 0) as (s & L & bs & E & K & ST & CO & NB & D & _). cbn [app] in K, ST, CO, D. cbn [cout app] in CO.
  pose proof (words_incl m L G (k_nodup _ _ _ _ K) (k_incl _ _ _ _ K) NW) as WL. pose proof (whs_nonneg m G GR L (k_incl _ _ _ _ K)) as WN.
  pose proof (length_le_whs m G L GR (k_incl _ _ _ _ K)) as LL.
  exists (word_bytes Compact_magic_number ++ word_bytes (zlen L) ++ word_bytes (c32 s) ++ word_bytes (whs m L) ++ bs). split.
  { unfold extern_compact_val. rewrite E. cbn [bind]. rewrite (k_64 _ _ _ _ K), (k_cnt _ _ _ _ K), CO. pose proof (k_32 _ _ _ _ K).
    rewrite !Z.geb_leb. destruct (Z.leb_spec (2 ^ 32) (c32 s)); [lia|]. destruct (Z.leb_spec (2 ^ 32) (whs m L)); [lia|]. reflexivity. }
  intros m0 atoms alloc junk rest AO AL J. unfold intern_compact_val. rewrite <- !app_assoc.
  rewrite get_word_bytes by (unfold Compact_magic_number; lia). cbn [bind]. rewrite Z.eqb_refl. cbn [negb].
  rewrite get_word_bytes by (unfold zlen; lia). cbn [bind]. rewrite get_word_bytes by (pose proof (k_32 _ _ _ _ K); lia). cbn [bind].
  rewrite get_word_bytes by lia. cbn [bind].
  destruct (Z.eqb_spec (whs m L) 0) as [Z0|Z0].
  - (* no block *)
    assert (L = []) as -> by (destruct L; [reflexivity|cbn [length] in LL; lia]).
    destruct (ALL atoms 0 0 0) as (s' & L' & bs' & E' & K' & _ & CO' & _ & _ & FO). cbn [app] in K', FO.
    assert (s' = s) as -> by congruence. assert (bs' = bs) as -> by (cbn [cout app] in CO'; congruence).
    assert (L' = []) as ->.
    { pose proof (k_cnt _ _ _ _ K') as X. rewrite (k_cnt _ _ _ _ K) in X. change (zlen (@nil Z)) with 0 in X. destruct L'; [reflexivity|].
      rewrite zlen_cons in X. pose proof (zlen_nonneg L'). lia. }
    destruct (FO (S (length (bs ++ rest))) (R [] 0 [] (bs ++ rest)) rest) as (r' & RE & _ & RI & _).
    + constructor; reflexivity.
    + cbn [rblk app]. change (whs m []) with 0. change (zlen (@nil Z)) with 0. lia.
    + change (zlen ([] ++ @nil Z)) with 0. lia.
    + reflexivity.
    + cbn [rinp]. lia.
    + cbn [app] in RE. rewrite RE. cbn [bind]. rewrite RI. eexists _, m0. split; [reflexivity|]. split; [|intros x w H; exact H].
      assert (V0 : value_in m [] v /\ (Z.odd v = true \/ sz m v = 0)).
      { destruct V as [R V]. unfold settled, is_long in ST. destruct ST as [ST|[ST|[]]]; [split; [split; auto|auto]|].
        destruct V as [V|[V|V]]; [split; [split; auto|auto]|split; [split; auto|auto]|]. apply (in_G m G GR) in V. lia. }
      destruct V0 as [V0 _]. destruct (extern_flat m 0 v V0) as (w & C & EW).
      assert (AW : adj atoms 0 (tr m [] v) = (if is_long w then w else Atom atoms (w / 4))).
      { unfold adj, adjust, tr. destruct C as [[-> O]|(t & B & -> & T & O)].
        - unfold is_long. rewrite O. apply odd_mod in O. assert (v mod 4 = 1 \/ v mod 4 = 3) as [-> | ->] by lia; reflexivity.
        - change (Z.odd v) with (is_long v) in O. rewrite !O. destruct (block_flds m v t [] B) as (_ & TT & SS & _). change (zlen (@nil Z)) with 0 in SS. rewrite SS, TT.
          cbn [Z.eqb]. assert (is_long (4 * t + 2) = false) as -> by (apply even_mod; lia).
          replace ((4 * t + 2) mod 4) with 2 by lia. reflexivity. }
      rewrite AW. now apply flat_read.
  - destruct (AL (whs m L - 1)) as (start & color & EA & S0 & S8 & SE & CL & FRE); [lia|]. rewrite EA.
    destruct (ALL atoms start color (zlen L)) as (s' & L' & bs' & E' & K' & S' & CO' & _ & D' & FO). cbn [app] in K', S', FO, D'.
    assert (s' = s) as -> by congruence. assert (bs' = bs) as -> by (cbn [cout app] in CO'; congruence).
    assert (WW : whs m L' = whs m L) by (pose proof (k_64 _ _ _ _ K); pose proof (k_64 _ _ _ _ K'); lia).
    assert (LW : zlen L' = zlen L) by (pose proof (k_cnt _ _ _ _ K); pose proof (k_cnt _ _ _ _ K'); lia).
    destruct (FO (S (length (bs ++ rest))) (R (junk (whs m L)) 0 [] (bs ++ rest)) rest) as (r' & RE & RO & RI & RL & _ & HO).
    + constructor; reflexivity.
    + cbn [rblk app]. rewrite J by lia. lia.
    + cbn [app]. lia.
    + reflexivity.
    + cbn [rinp]. lia.
    + cbn [app] in RE, RO, HO. rewrite RE. cbn [bind]. rewrite RI. cbn [rblk] in RL. rewrite J in RL by lia.
      assert (FR' : forall x, start <= x < start + 8 * whs m L' -> m0 x = None) by (intros x Hx; apply FRE; lia).
      assert (RB : rblk r' = region m atoms start color L')
        by (apply (region_eq m G GR atoms start color SZB); [exact (k_incl _ _ _ _ K')|exact (k_nodup _ _ _ _ K')|lia|exact HO]).
      rewrite RB. eexists _, _. split; [reflexivity|]. split.
      * apply (copy_ok m G GR atoms start color CL m0 AO (conj S0 S8) (whs m L') FR' L' v (k_incl _ _ _ _ K') (Z.le_refl _) (k_nodup _ _ _ _ K') S' V D').
      * apply (mem_extends m G GR atoms start color m0 (conj S0 S8) (whs m L') FR' L' (k_incl _ _ _ _ K') (Z.le_refl _) (k_nodup _ _ _ _ K')).
Qed.
Example C17_ex : compact_round_trip ex_mem [4096; 5000; 6000] 4096.
Proof.
  assert (A : block ex_mem 7000 5 []) by (apply ex_block; [exists 5; vm_compute; repeat split; discriminate|reflexivity]).
  apply C17_round_trip_partial.
  - constructor; [repeat constructor; cbn; intros H; decompose [or] H; try discriminate; contradiction|].
    intros a [<-|[<-|[<-|[]]]]; (split; [unfold two63; lia|]); (split; [reflexivity|]).
    + exists 0, [5000; 5000; 6000; 2 ^ 64 - 1; 7000]. split; [apply ex_block; [eexists; split; [reflexivity|]; vm_compute; repeat split; discriminate|reflexivity]|].
      split; [discriminate|]. split; [unfold data_tag; lia|]. split; [repeat constructor; vm_compute; discriminate || reflexivity|].
      intros _. repeat (apply Forall_cons; [split; [vm_compute; split; [discriminate|reflexivity]|]|]); try apply Forall_nil.
      4: left; reflexivity. 4: right; left; split; [reflexivity|eauto]. all: right; right; cbn; tauto.
    + exists 1, [4096]. split; [apply ex_block; [eexists; split; [reflexivity|]; vm_compute; repeat split; discriminate|reflexivity]|].
      split; [discriminate|]. split; [unfold data_tag; lia|]. split; [repeat constructor; vm_compute; discriminate || reflexivity|].
      intros _. apply Forall_cons; [split; [vm_compute; split; [discriminate|reflexivity]|right; right; cbn; tauto]|apply Forall_nil].
    + exists 253, [2 ^ 56 - 1]. split; [apply ex_block; [eexists; split; [reflexivity|]; vm_compute; repeat split; discriminate|reflexivity]|].
      split; [discriminate|]. split; [unfold data_tag; lia|]. split; [repeat constructor; vm_compute; discriminate || reflexivity|].
      unfold scanned. lia.
  - intros a t ws [<-|[<-|[<-|[]]]] [(hd & E & T & Z & _) W]; vm_compute in E; injection E as <-; vm_compute in T; subst t; unfold scanned.
    + split; [lia|]. split; lia.
    + split; [lia|]. split; lia.
    + split; [|split; lia]. intros _. destruct ws as [|w ws]; [unfold zlen in Z; cbn [length] in Z; lia|]. destruct ws as [|w1 ws]; [|rewrite !zlen_cons in Z; pose proof (zlen_nonneg ws); lia].
      specialize (W 0 w eq_refl). vm_compute in W. injection W as <-. exists (repeat 255 7), 0. split; [reflexivity|lia].
  - split; [vm_compute; split; [discriminate|reflexivity]|]. right. right. now left.
  - reflexivity.
Qed.

(** ** Refuted *)
Lemma each_ones m fuel : forall n a s, (forall i, 0 <= i < Z.of_nat n -> m (a + 8 * i) = Some 1) ->
  each_field m (emit_compact m (S fuel)) n a s = Ret (put (repeat 64 n) s).
Proof.
  induction n as [|n IH]; intros a s H; cbn [each_field repeat].
  - unfold put. rewrite app_nil_r. now destruct s.
  - assert (m a = Some 1) as M by (rewrite <- (H 0) by lia; f_equal; lia). unfold ld. rewrite M. cbn [bind emit_compact].
    change (is_long 1) with true. cbn [bind]. rewrite IH by (intros i Hi; rewrite <- (H (i + 1)) by lia; f_equal; lia).
    unfold put. cbn [ctab ccnt c32 c64 cout]. change (emit_int (Long_val 1)) with [64]. rewrite <- app_assoc. reflexivity.
Qed.
(** an array of 2^22 zeros: the size in the header is cut to 22 bits, the reader makes an empty array and
    leaves the elements unread in the channel *)
Theorem C17_large : forall m v ws fuel, block m v 0 ws -> zlen ws = 2 ^ 22 -> (forall w, In w ws -> w = 1) ->
  v mod 8 = 0 -> v <> 0 -> (2 <= fuel)%nat ->
  exists bytes, extern_compact_val m fuel v = Ret bytes /\
    forall m0 atoms alloc junk rest start color, alloc (2 ^ 22) = Some (start, color) ->
      intern_compact_val atoms alloc junk m0 (bytes ++ rest) =
        Ret (Atom atoms 0, with_region m0 start (junk (2 ^ 22 + 1)), repeat 64 (length ws) ++ rest).
Proof.
  intros m v ws fuel B Z W V8 V0 F. destruct (block_flds m v 0 ws B) as (_ & ET & SZ & FL & E & HR).
  destruct B as [(hd & E1 & T1 & S1 & R1) BW]. destruct fuel as [|[|fuel]]; [lia|lia|].
  exists (word_bytes Compact_magic_number ++ word_bytes 1 ++ word_bytes (2 ^ 22 + 1) ++ word_bytes (2 ^ 22 + 1) ++
    output_number CODE_BLOCK32 hd 4 ++ repeat 64 (length ws)). split.
  - unfold extern_compact_val. remember (S fuel) as f1. cbn [emit_compact]. assert (is_long v = false) as -> by (apply even_mod; lia).
    unfold ld. rewrite E1. cbn [bind]. unfold Tag_hd, Wosize_hd. rewrite T1, S1, Z. change (2 ^ 22 =? 0) with false. cbv iota.
    destruct (alloc_ok_tab 2039) as (T0 & L0 & O0 & M0); [lia|]. cbn [ctab ccnt]. rewrite L0. change (2 * 0 >=? 2039) with false. cbn [bind].
    destruct (find_ok (alloc_table 2039) v T0) as [(i & o & EF & MP)|(i & EF & AB & INS)]; [rewrite O0; unfold zlen in L0; lia|exact V0| |].
    { destruct (M0 v o V0 MP). }
    rewrite EF. cbn [bind]. destruct (INS 0) as (t' & EU & _). rewrite EU. cbn [bind].
    change (0 =? String_tag) with false. change (0 =? Double_tag) with false. change ((0 =? Abstract_tag) || (0 =? Final_tag)) with false.
    change (0 =? Closure_tag) with false. cbv iota. subst f1.
    assert (NW : Z.to_nat (2 ^ 22) = length ws) by (unfold zlen in Z; lia). rewrite NW.
    rewrite each_ones.
    2:{ intros j Hi. destruct (zget_some ws j) as (w & EG); [unfold zlen; lia|]. rewrite (BW j w EG). f_equal. apply W. eapply zget_In; eauto. }
    cbn [bind]. unfold emit_header. change ((0 <? 16) && (2 ^ 22 <? 8)) with false. cbv iota.
    unfold put, grow. cbn [ctab ccnt c32 c64 cout]. change ((0 + (1 + 2 ^ 22) >=? 2 ^ 32) || (0 + (1 + 2 ^ 22) >=? 2 ^ 32)) with false. cbv iota.
    rewrite app_nil_l. reflexivity.
  - intros m0 atoms alloc junk rest start color EA. unfold intern_compact_val. rewrite <- !app_assoc.
    rewrite get_word_bytes by (unfold Compact_magic_number; lia). cbn [bind]. rewrite Z.eqb_refl. cbn [negb].
    rewrite get_word_bytes by lia. cbn [bind]. rewrite get_word_bytes by lia. cbn [bind]. rewrite get_word_bytes by lia. cbn [bind].
    change (2 ^ 22 + 1 =? 0) with false. cbv iota. change (2 ^ 22 + 1 - 1) with (2 ^ 22). rewrite EA.
    set (tail := repeat 64 (length ws) ++ rest). set (len := length _). clearbody len. cbn [read_compact rinp].
    unfold output_number. cbn [app get_ch bind]. change (CODE_BLOCK32 mod 256) with 8. cbn -[input_bytes be_bytes].
    rewrite input_unsigned by lia. change (2 ^ (8 * Z.of_nat 4)) with 4294967296.
    assert (HM : Tag_hd (hd mod 4294967296) = 0 /\ Wosize_hd (hd mod 4294967296) = 0).
    { unfold Tag_hd, Wosize_hd. rewrite Z in S1. clear - S1 T1. lia. }
    destruct HM as [H1 H2]. cbn [bind]. rewrite H1, H2. unfold read_block. cbn [Z.eqb bind]. reflexivity.
Qed.
Definition zeros_mem (n : Z) : memory := fun x =>
  if x =? 4088 then Some (Make_header n 0 White)
  else if (4096 <=? x) && (x <? 4096 + 8 * n) && (x mod 8 =? 0) then Some 1 else None.
Lemma zeros_block n : 0 <= n < 2 ^ 54 -> block (zeros_mem n) 4096 0 (repeat 1 (Z.to_nat n)).
Proof.
  intros H. constructor.
  - exists (Make_header n 0 White). split; [reflexivity|]. unfold Make_header, White. rewrite zlen_repeat. unfold two64. lia.
  - intros i w X. assert (R := zget_range _ _ _ X). rewrite zlen_repeat in R by lia. assert (w = 1) as -> by (apply zget_In, repeat_spec in X; exact X).
    unfold zeros_mem. destruct (Z.eqb_spec (4096 + 8 * i) 4088); [lia|]. destruct (Z.leb_spec 4096 (4096 + 8 * i)); [|lia].
    destruct (Z.ltb_spec (4096 + 8 * i) (4096 + 8 * n)); [|lia]. destruct (Z.eqb_spec ((4096 + 8 * i) mod 8) 0); [reflexivity|lia].
Qed.
Theorem C17_large_refuted : exists m G v, graph m G /\ In v G /\ words m G = 2 ^ 22 + 1 /\ ~ compact_round_trip m G v.
Proof.
  set (n := 2 ^ 22). assert (HN : 0 <= n < 2 ^ 54) by (unfold n; lia). assert (B := zeros_block n HN).
  exists (zeros_mem n), [4096], 4096. split; [|split; [now left|split; [reflexivity|]]].
  - constructor; [repeat constructor; cbn; tauto|]. intros a [<-|[]]. split; [unfold two63; lia|]. split; [reflexivity|].
    exists 0, (repeat 1 (Z.to_nat n)). split; [exact B|]. split.
    { intros X. apply (f_equal (@length Z)) in X. rewrite repeat_length in X. unfold n in X. cbn [length] in X. lia. }
    split; [unfold data_tag; lia|]. split; [|intros _].
    + apply Forall_forall. intros w Hw. apply repeat_spec in Hw as ->. unfold two64. lia.
    + apply Forall_forall. intros w Hw. apply repeat_spec in Hw as ->. split; [unfold two64; lia|now left].
  - intros H. destruct (H 2%nat ltac:(cbn; lia)) as (b & E & R).
    destruct (C17_large (zeros_mem n) 4096 _ 2%nat B) as (b' & E' & R'); [rewrite zlen_repeat; unfold n; lia|intros w Hw; now apply repeat_spec in Hw|reflexivity|discriminate|lia|].
    assert (b' = b) as -> by congruence.
    destruct (R reader_mem reader_atoms reader_alloc (fun k => repeat 0 (Z.to_nat k)) [] reader_atoms_ok reader_alloc_ok) as (v' & m' & I' & _).
    { intros k Hk. rewrite zlen_repeat; lia. }
    rewrite (R' reader_mem reader_atoms reader_alloc (fun k => repeat 0 (Z.to_nat k)) [] 65536 White eq_refl) in I'.
    assert (X : repeat 64 (length (repeat 1 (Z.to_nat n))) ++ [] = []) by congruence.
    apply (f_equal (@length Z)) in X. rewrite app_length, !repeat_length in X. cbn [length] in X. unfold n in X. lia.
Qed.
(** functions, abstract and finalized values are refused *)
Theorem C17_functions : forall m v t ws fuel, block m v t ws -> ws <> [] -> v mod 8 = 0 -> v <> 0 ->
  (t = 249 \/ t = 252 \/ t = 255) -> (0 < fuel)%nat -> extern_compact_val m fuel v = Raise FailExn.
Proof.
  intros m v t ws fuel B N V8 V0 T F. destruct B as [(hd & E1 & T1 & S1 & R1) BW].
  assert (0 < zlen ws) by (destruct ws; [contradiction|]; rewrite zlen_cons; pose proof (zlen_nonneg ws); lia).
  destruct fuel as [|fuel]; [lia|]. unfold extern_compact_val. cbn [emit_compact]. assert (is_long v = false) as -> by (apply even_mod; lia).
  unfold ld. rewrite E1. cbn [bind]. unfold Tag_hd, Wosize_hd. rewrite T1, S1. destruct (Z.eqb_spec (zlen ws) 0); [lia|].
  destruct (alloc_ok_tab 2039) as (T0 & L0 & O0 & M0); [lia|]. cbn [ctab ccnt]. change (2 * 0) with 0. rewrite L0. change (0 >=? 2039) with false. cbn [bind].
  destruct (find_ok (alloc_table 2039) v T0) as [(i & o & EF & MP)|(i & EF & AB & INS)]; [rewrite O0; unfold zlen in L0; lia|exact V0| |].
  { destruct (M0 v o V0 MP). }
  rewrite EF. cbn [bind]. destruct (INS 0) as (t' & EU & _). rewrite EU. cbn [bind].
  destruct T as [->|[->| ->]]; reflexivity.
Qed.
Example C17_functions_ex : extern_compact_val (at_words [(4088, Make_header 1 249 White); (4096, 123456)]) 1 4096 = Raise FailExn.
Proof.
  eapply C17_functions with (t := 249) (ws := [123456]); [|discriminate|reflexivity|discriminate|auto|lia].
  constructor; [exists (Make_header 1 249 White); repeat split; try discriminate; reflexivity|].
  intros i w X. pose proof (zget_range _ _ _ X) as Y. change (zlen [123456]) with 1 in Y. assert (i = 0) as -> by lia.
  vm_compute in X. inversion X. reflexivity.
Qed.

Print Assumptions C17_round_trip_partial.
Print Assumptions C17_large.
Print Assumptions C17_large_refuted.
Print Assumptions C17_functions.
