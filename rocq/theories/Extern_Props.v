(** C16: a value written by the fast-format writer is read back as a copy; C18: the same through strings.
    Reference: Extern_Spec. *)
From Verif Require Import Base ArrayLib Mem Io_Model Extern_Model Extern_Spec Extern_Tab Extern_Proofs Extern_In.

(** the full claim: the value [v] of memory [m], with blocks [G], is written, and any reader (memory [m0],
    atoms, allocator) of the bytes, with anything behind them, gets a copy of the value, loses nothing of
    its memory, and has read exactly the bytes written *)
Definition round_trip (m : memory) (G : list Z) (v : Z) : Prop :=
  forall fuel, (length G <= fuel)%nat -> exists bytes, extern_val m fuel v = Ret bytes /\
    forall m0 atoms alloc rest, atoms_ok m0 atoms -> alloc_ok m0 alloc ->
      exists v' m', intern_val atoms alloc m0 (bytes ++ rest) = Ret (v', m', rest) /\
        copy_of m v m' v' /\ extends m0 m'.

Lemma Forall_concat_seg m G L : graph m G -> incl L G -> whs m L < two63 / 8 -> Forall (done m L) L ->
  Forall (fun w => 0 <= w < two64) (concat (map (seg m L) L)).
Proof.
  intros GR I W D. enough (forall L2, incl L2 L -> Forall (fun w => 0 <= w < two64) (concat (map (seg m L) L2))) as H
    by (apply H; intros x Hx; exact Hx).
  induction L2 as [|a L2 IH]; intros I2; cbn [map concat]; [constructor|]. apply Forall_app. split.
  - assert (In a L) by (apply I2; now left). apply (seg_range m G GR); auto. rewrite Forall_forall in D. auto.
  - apply IH. intros x Hx. apply I2. now right.
Qed.
Lemma length_le_whs m G L : graph m G -> incl L G -> Z.of_nat (length L) <= whs m L.
Proof.
  intros GR. induction L as [|a L IH]; intros I; [cbn; lia|]. rewrite whs_cons. cbn [length].
  assert (0 < sz m a) by (specialize (I a (or_introl eq_refl)); apply (in_G m G GR) in I; lia).
  specialize (IH (fun x Hx => I x (or_intror Hx))). lia.
Qed.


Lemma round_trip_block m G v : graph m G -> In v G -> words m G < 2 ^ 28 -> round_trip m G v.
Proof.
  intros GR VG W fuel F. destruct (in_G m G GR v VG) as (VR & V8 & BL & SZ & SP & DT & FR & FS).
  assert (V : value_in m G v) by (split; [unfold two63, two64 in *; lia|now right; right]).
  assert (VO : is_long v = false) by (apply even_mod; lia).
  destruct (emit_all_ok m G GR v fuel V F) as (L & E & I & N & S & D & C).
  assert (NW : forall a, In a G -> 0 <= sz m a) by (intros a Ha; apply (in_G m G GR) in Ha; lia).
  pose proof (words_incl m L G N I NW) as WL.
  destruct C as [->|((L' & EL) & _)]; [exfalso; destruct S as [S|[S|S]]; [congruence|lia|destruct S]|].
  assert (IV : In v L) by (rewrite EL; now left).
  pose proof (length_le_whs m G L GR I) as LL. assert (L1 : 1 <= whs m L) by (rewrite EL in LL |- *; cbn [length] in LL; lia).
  assert (ZB : zlen (concat (map (seg m L) L)) = whs m L) by (apply zlen_concat_seg; intros a Ha; apply (zlen_seg m G GR); auto).
  set (blk := concat (map (seg m L) L)) in *.
  assert (BR : Forall (fun w => 0 <= w < two64) blk) by (apply (Forall_concat_seg m G); auto; unfold two63; lia).
  exists (word_bytes Extern_magic_number ++ word_bytes (whs m L) ++ concat (map le_bytes blk)). split.
  { unfold extern_val. rewrite E. cbn [bind]. fold blk. rewrite ZB. destruct (Z.eqb_spec (whs m L) 0); [lia|].
    do 3 f_equal. apply firstn_all2. pose proof (zlen_le blk) as X. unfold zlen in X at 1. unfold to_unsigned.
    rewrite Z.mod_small by lia. lia. }
  intros m0 atoms alloc rest AO AL. unfold intern_val. rewrite <- !app_assoc.
  rewrite get_word_bytes by (unfold Extern_magic_number; lia). cbn [bind]. rewrite Z.eqb_refl. cbn [negb].
  rewrite get_word_bytes by lia. cbn [bind]. destruct (Z.eqb_spec (whs m L) 0); [lia|].
  destruct (AL (whs m L - 1)) as (start & color & EA & S0 & S8 & SE & CO & FRE); [lia|]. rewrite EA.
  rewrite zlen_app, zlen_le, ZB. pose proof (zlen_nonneg rest). destruct (Z.ltb_spec (8 * whs m L + zlen rest) (8 * whs m L)); [lia|].
  replace (Z.to_nat (whs m L)) with (length blk) at 1 by (rewrite <- ZB; unfold zlen; lia).
  replace (Z.to_nat (whs m L)) with (length blk) by (rewrite <- ZB; unfold zlen; lia). rewrite words_le by exact BR.
  unfold blk at 2. rewrite (adjust_all m G GR atoms start color L I) by (rewrite <- ZB in LL; unfold zlen in LL; lia). cbn [bind].
  assert (FR' : forall x, start <= x < start + 8 * whs m L -> m0 x = None) by (intros x Hx; apply FRE; lia).
  eexists _, _. split; [|split].
  - f_equal. f_equal.
    replace (Z.to_nat (8 * whs m L)) with (length (concat (map le_bytes blk))) by (pose proof (zlen_le blk) as X; unfold zlen in *; lia).
    rewrite skipn_app, skipn_all, Nat.sub_diag. reflexivity.
  - assert (EV : start + 8 = adj atoms start (tr m L v)).
    { unfold tr. rewrite VO. destruct (Z.eqb_spec (sz m v) 0); [lia|]. rewrite EL. cbn [offs]. rewrite Z.eqb_refl. reflexivity. }
    rewrite EV. apply (copy_ok m G GR atoms start color CO m0 AO (conj S0 S8) (whs m L) FR' L v I (Z.le_refl _) N S V D).
  - apply (mem_extends m G GR atoms start color m0 (conj S0 S8) (whs m L) FR' L I (Z.le_refl _) N).
Qed.

(** integers and atoms *)
Lemma extern_flat m fuel v : value_in m [] v -> exists w, (w = v /\ Z.odd v = true \/ exists t, block m v t [] /\ w = 4 * t + 2 /\ 0 <= t < 256 /\ Z.odd v = false) /\
  emit_all m fuel v = Ret (w, []).
Proof.
  intros (R & V). unfold emit_all, emit. destruct (is_long v) eqn:O.
  - exists v. split; [left; split; [reflexivity|exact O]|]. cbn [bind]. destruct fuel; reflexivity.
  - destruct V as [V|[[V8 [t B]]|[]]]; [unfold is_long in O; congruence|].
    destruct (block_flds m v t [] B) as (_ & T & SZ & _ & E & _). pose proof (tg_range m v). unfold ld. rewrite E. cbn [bind].
    fold (sz m v) (tg m v). rewrite SZ. change (zlen (@nil Z) =? 0) with true. cbn [bind]. exists (4 * tg m v + 2).
    split; [right; exists t; rewrite <- T; split; [rewrite T; exact B|split; [reflexivity|split; [lia|exact O]]]|]. destruct fuel; reflexivity.
Qed.
Lemma flat_read m m' v w atoms : atoms_ok m' atoms ->
  (w = v /\ Z.odd v = true \/ exists t, block m v t [] /\ w = 4 * t + 2 /\ 0 <= t < 256 /\ Z.odd v = false) ->
  copy_of m v m' (if is_long w then w else Atom atoms (w / 4)).
Proof.
  intros [A8 AB] H. exists [], (fun x => x). split; [|split; [intros a b []|intros a []]].
  destruct H as [[-> O]|(t & B & -> & T & O)].
  - left. unfold is_long. rewrite O. auto.
  - right. left. assert (is_long (4 * t + 2) = false) as -> by (apply even_mod; lia). replace ((4 * t + 2) / 4) with t by lia.
    split; [exact O|]. specialize (AB t T). unfold Atom. split; [apply even_mod; lia|]. eauto.
Qed.

(** proved for blocks (values with at least one field or byte) of less than 2^28 words, for atoms (empty
    arrays, constant constructors of big datatypes) and for integers whose tagged representation is below
    2^32.  Missing: other integers at the top (false, see below) and structures of 2^31 bytes and more
    (C19_huge_refuted) *)
Theorem C16_round_trip_partial : forall m G v, graph m G -> value_in m G v -> words m G < 2 ^ 28 ->
  (Z.odd v = true -> v < 2 ^ 32) -> round_trip m G v.
Proof.
  intros m G v GR V W Im. destruct (in_dec Z.eq_dec v G) as [I|I]; [now apply round_trip_block|].
  intros fuel F. assert (V0 : value_in m [] v) by (destruct V as [R [V|[V|V]]]; split; auto; contradiction).
  destruct (extern_flat m fuel v V0) as (w & C & E). unfold extern_val. rewrite E. cbn [bind]. change (zlen (@nil Z)) with 0.
  cbn [Z.eqb]. eexists. split; [reflexivity|]. intros m0 atoms alloc rest AO AL. unfold intern_val. rewrite <- !app_assoc.
  assert (WR : 0 <= w < 4294967296) by (destruct V0 as [R _]; destruct C as [[-> O]|(t & _ & -> & T & _)]; [specialize (Im O)|]; lia).
  rewrite get_word_bytes by (unfold Extern_magic_number; lia). cbn [bind]. rewrite Z.eqb_refl. cbn [negb].
  rewrite get_word_bytes by lia. cbn [bind]. cbn [Z.eqb]. rewrite get_word_bytes by exact WR. cbn [bind].
  eexists _, _. split; [reflexivity|]. split; [now apply flat_read|]. intros x y H. exact H.
Qed.

(** ** Examples: a memory given by its words *)
Fixpoint at_words (l : list (Z * Z)) : memory :=
  fun x => match l with [] => None | (a, w) :: l => if x =? a then Some w else at_words l x end.
(** a reader: atoms at 1024, allocation at 65536 *)
Definition reader_atoms : Z := 1024.
Definition reader_mem : memory := fun x => if (1024 <=? x) && (x <? 1024 + 8 * 256) && (x mod 8 =? 0) then Some ((x - 1024) / 8) else None.
Definition reader_alloc : Z -> option (Z * Z) := fun n => Some (65536, White).
Lemma reader_atoms_ok : atoms_ok reader_mem reader_atoms.
Proof.
  split; [reflexivity|]. intros t T. constructor.
  - exists t. unfold reader_mem, reader_atoms. assert ((1024 <=? 1024 + 8 * t + 8 - 8) && (1024 + 8 * t + 8 - 8 <? 1024 + 8 * 256) && ((1024 + 8 * t + 8 - 8) mod 8 =? 0) = true) as -> by lia.
    change (zlen (@nil Z)) with 0. unfold two64. split; [f_equal; lia|lia].
  - intros i w E. apply zget_range in E. change (zlen (@nil Z)) with 0 in E. lia.
Qed.
Lemma reader_alloc_ok : alloc_ok reader_mem reader_alloc.
Proof.
  intros n Hn. exists 65536, White. split; [reflexivity|]. unfold White, two63. split; [lia|]. split; [reflexivity|]. split; [lia|].
  split; [cbn; auto|]. intros x Hx. unfold reader_mem. assert ((1024 <=? x) && (x <? 1024 + 8 * 256) && (x mod 8 =? 0) = false) as -> by lia. reflexivity.
Qed.

(** let r = ref nil; a = (r, r, "\255\255\255\255\255\255\255", ~1) with r := a: shared and cyclic;
    blocks at 4096 (4 words), 5000 (1 word), 6000 (string); the atom of tag 5 at 7000 *)
Definition ex_mem : memory := at_words
  [(4088, Make_header 5 0 White); (4096, 5000); (4104, 5000); (4112, 6000); (4120, 2 ^ 64 - 1); (4128, 7000);
   (4992, Make_header 1 1 Black); (5000, 4096);
   (5992, Make_header 1 253 White); (6000, 2 ^ 56 - 1); (6992, 5)].
Lemma ex_block a t ws : (exists hd, ex_mem (a - 8) = Some hd /\ hd mod 256 = t /\ hd / 1024 = zlen ws /\ 0 <= hd < two64) ->
  map ex_mem (map (fun i => a + 8 * Z.of_nat i) (seq 0 (length ws))) = map Some ws -> block ex_mem a t ws.
Proof.
  intros H E. constructor; [exact H|]. intros i w X. pose proof (zget_range _ _ _ X) as R.
  assert (Y : zget (map ex_mem (map (fun i => a + 8 * Z.of_nat i) (seq 0 (length ws)))) i = zget (map Some ws) i) by now rewrite E.
  unfold zget in *. unfold zlen in R. destruct (Z.ltb_spec i 0); [lia|]. rewrite map_map in Y. rewrite !nth_error_map in Y.
  rewrite X in Y. cbn [option_map] in Y. assert (Q : nth_error (seq 0 (length ws)) (Z.to_nat i) = Some (Z.to_nat i)).
  { rewrite (nth_error_nth' _ 0%nat) by (rewrite seq_length; lia). rewrite seq_nth by lia. reflexivity. }
  rewrite Q in Y. cbn [option_map] in Y. replace (a + 8 * i) with (a + 8 * Z.of_nat (Z.to_nat i)) by lia. congruence.
Qed.
Example C16_ex : round_trip ex_mem [4096; 5000; 6000] 4096.
Proof.
  assert (A : block ex_mem 7000 5 []) by (apply ex_block; [exists 5; vm_compute; repeat split; discriminate|reflexivity]).
  apply C16_round_trip_partial.
  - constructor; [repeat constructor; cbn; intros H; decompose [or] H; try discriminate; contradiction|].
    intros a [<-|[<-|[<-|[]]]]; (split; [unfold two63; lia|]); (split; [reflexivity|]).
    + exists 0, [5000; 5000; 6000; 2 ^ 64 - 1; 7000]. split; [apply ex_block; [eexists; split; [reflexivity|]; vm_compute; repeat split; discriminate|reflexivity]|].
      split; [discriminate|]. split; [unfold data_tag; lia|]. split; [repeat constructor; vm_compute; discriminate || reflexivity|].
      intros _. repeat (apply Forall_cons; [split; [vm_compute; split; [discriminate|reflexivity]|]|]); try apply Forall_nil.
      4: left; reflexivity. 4: right; left; split; [reflexivity|eauto]. all: right; right; cbn; tauto.
    + exists 1, [4096]. split; [apply ex_block; [eexists; split; [reflexivity|]; vm_compute; repeat split; discriminate|reflexivity]|].
      split; [discriminate|]. split; [unfold data_tag; lia|]. split; [repeat constructor; vm_compute; discriminate || reflexivity|].
      intros _. apply Forall_cons; [split; [vm_compute; split; [discriminate|reflexivity]|right; right; cbn; tauto]|apply Forall_nil].
    + exists 253, [2 ^ 56 - 1]. split; [apply ex_block; [eexists; split; [reflexivity|]; vm_compute; repeat split; discriminate|reflexivity]|].
      split; [discriminate|]. split; [unfold data_tag; lia|]. split; [repeat constructor; vm_compute; discriminate || reflexivity|].
      unfold scanned. lia.
  - split; [vm_compute; split; [discriminate|reflexivity]|]. right. right. now left.
  - reflexivity.
  - discriminate.
Qed.

(** ** Refuted *)
(** an integer at the top whose tagged representation does not fit in 32 bits (every negative integer, and
    every integer from 2^31 on) is written as its low 32 bits and read back as another integer *)
Theorem C16_immediate : forall m v fuel, Z.odd v = true -> 2 ^ 32 <= v < two64 ->
  exists bytes, extern_val m fuel v = Ret bytes /\
    forall m0 atoms alloc rest, intern_val atoms alloc m0 (bytes ++ rest) = Ret (v mod 2 ^ 32, m0, rest).
Proof.
  intros m v fuel O R. destruct (extern_flat m fuel v) as (w & C & E); [split; [lia|now left]|].
  assert (w = v) as -> by (destruct C as [[H _]|(t & _ & _ & _ & H)]; congruence).
  unfold extern_val. rewrite E. cbn [bind]. change (zlen (@nil Z)) with 0. cbn [Z.eqb]. eexists. split; [reflexivity|].
  intros m0 atoms alloc rest. unfold intern_val. rewrite <- !app_assoc.
  rewrite get_word_bytes by (unfold Extern_magic_number; lia). cbn [bind]. rewrite Z.eqb_refl. cbn [negb].
  rewrite get_word_bytes by lia. cbn [bind]. cbn [Z.eqb].
  assert (WB : word_bytes v = word_bytes (v mod 2 ^ 32)).
  { unfold word_bytes, to_unsigned. change (2 ^ 32) with 4294967296. rewrite Z.mod_mod by lia. reflexivity. }
  rewrite WB, get_word_bytes by lia. cbn [bind].
  assert (is_long (v mod 2 ^ 32) = true) as -> by (apply odd_mod in O; apply odd_mod; lia). reflexivity.
Qed.
Theorem C16_immediate_refuted : exists m v, value_in m [] v /\ ~ round_trip m [] v.
Proof.
  exists (fun _ => None), (two64 - 1). split; [split; [unfold two64; lia|now left]|]. intros H.
  destruct (H 0%nat (le_n 0)) as (b & E & R).
  destruct (C16_immediate (fun _ => None) (two64 - 1) 0%nat) as (b' & E' & R'); [reflexivity|unfold two64; lia|].
  assert (b' = b) as -> by congruence.
  destruct (R reader_mem reader_atoms reader_alloc [] reader_atoms_ok reader_alloc_ok) as (v' & m' & I & (Rs & f & S & _ & B) & _).
  rewrite R' in I. assert (v' = (two64 - 1) mod 2 ^ 32) by congruence. assert (m' = reader_mem) by congruence. subst v' m'.
  clear - S B. destruct S as [[_ S]|[[S _]|[S Q]]]; [vm_compute in S; discriminate|vm_compute in S; discriminate|].
  destruct (B _ S) as [O _]. vm_compute in O. discriminate.
Qed.

(** a weak array holding a block: its element is read back as the offset of the block in the file, which is
    not the address of anything *)
Definition weak_mem : memory := at_words [(4088, Make_header 1 251 White); (4096, 5000); (4992, Make_header 1 0 White); (5000, 7)].
Theorem C16_weak_refuted : exists m v p bytes v' m' w,
  block m v 251 [p] /\ block m p 0 [7] /\ extern_val m 2 v = Ret bytes /\
  intern_val reader_atoms reader_alloc reader_mem bytes = Ret (v', m', []) /\
  block m' v' 251 [w] /\ m' (w - 8) = None /\ m' w = None.
Proof.
  set (body := concat (map le_bytes [Make_header 1 251 Black; 24; Make_header 1 0 Black; 7])).
  exists weak_mem, 4096, 5000, (word_bytes Extern_magic_number ++ word_bytes 4 ++ body), 65544,
    (with_region reader_mem 65536 [Make_header 1 251 White; 24; Make_header 1 0 White; 7]), 24.
  split; [|split; [|split; [|split; [|split; [|split]]]]].
  - constructor; [exists (Make_header 1 251 White); repeat split; try discriminate; reflexivity|].
    intros i w X. pose proof (zget_range _ _ _ X) as Y. change (zlen [5000]) with 1 in Y. assert (i = 0) as -> by lia.
    vm_compute in X. inversion X. reflexivity.
  - constructor; [exists (Make_header 1 0 White); repeat split; try discriminate; reflexivity|].
    intros i w X. pose proof (zget_range _ _ _ X) as Y. change (zlen [7]) with 1 in Y. assert (i = 0) as -> by lia.
    vm_compute in X. inversion X. reflexivity.
  - vm_compute. reflexivity.
  - unfold intern_val. rewrite get_word_bytes by (unfold Extern_magic_number; lia). cbn [bind]. rewrite Z.eqb_refl. cbn [negb].
    rewrite get_word_bytes by lia. cbn [bind]. change (4 =? 0) with false. cbv iota. unfold reader_alloc.
    change (zlen body <? 8 * 4) with false. cbv iota.
    assert (A : adjust_pointers reader_atoms (S (Z.to_nat 4)) 65536 White 0 (words_of (Z.to_nat 4) body) =
      Ret [Make_header 1 251 White; 24; Make_header 1 0 White; 7]) by (vm_compute; reflexivity).
    rewrite A. reflexivity.
  - constructor; [exists (Make_header 1 251 White); repeat split; try discriminate; reflexivity|].
    intros i w X. pose proof (zget_range _ _ _ X) as Y. change (zlen [24]) with 1 in Y. assert (i = 0) as -> by lia.
    vm_compute in X. inversion X. reflexivity.
  - reflexivity.
  - reflexivity.
Qed.
(** functions, abstract and finalized values are refused *)
Theorem C16_functions : forall m v t ws fuel, block m v t ws -> ws <> [] -> v mod 8 = 0 -> v <> 0 ->
  (t = 249 \/ t = 252 \/ t = 255) -> (0 < fuel)%nat -> extern_val m fuel v = Raise FailExn.
Proof.
  intros m v t ws fuel B N V8 V0 T F. destruct (block_flds m v t ws B) as (_ & ET & SZ & FL & E & HR).
  assert (0 < zlen ws) by (destruct ws; [contradiction|]; rewrite zlen_cons; pose proof (zlen_nonneg ws); lia).
  unfold extern_val, emit_all, emit. assert (is_long v = false) as -> by (apply even_mod; lia).
  unfold ld. rewrite E. cbn [bind]. fold (sz m v) (tg m v). destruct (Z.eqb_spec (sz m v) 0); [lia|].
  destruct (alloc_ok_tab 2039) as (T0 & L0 & O0 & M0); [lia|]. cbn [xused xtab xblk xsize]. rewrite L0. cbn [Z.mul Z.geb Z.compare bind].
  destruct (find_ok (alloc_table 2039) v T0) as [(i & o & EF & MP)|(i & EF & AB & INS)]; [rewrite O0; unfold zlen in L0; lia|exact V0| |].
  { destruct (M0 v o V0 MP). }
  rewrite EF. cbn [bind]. change (zlen (@nil Z)) with 0.
  destruct (resize_result_ok (0 + 1 + sz m v) (Z.to_nat (0 + 1 + sz m v)) 4096) as (xs & EX & LX & PX); [lia|lia|].
  rewrite EX. cbn [bind]. destruct (Z.leb_spec (0 + 1 + sz m v) xs); [|lia].
  destruct (INS ((0 + 1) * 8)) as (t' & EU & _). rewrite EU. cbn [bind].
  assert (LD : load m v (Z.to_nat (sz m v)) = Ret (flds m v)).
  { unfold flds. destruct (load m v (Z.to_nat (sz m v))) eqn:X; auto; exfalso; unfold flds in FL; rewrite X in FL;
      rewrite <- FL in SZ; unfold zlen in SZ; cbn in SZ; lia. }
  rewrite LD. cbn [bind app]. destruct fuel as [|fuel]; [lia|]. cbn [emit_loop xblk]. rewrite zlen_cons.
  pose proof (zlen_nonneg (flds m v)). destruct (Z.ltb_spec 0 (1 + zlen (flds m v))); [|lia].
  change (sub_raw (Make_header (sz m v) (tg m v) Black :: flds m v) 0) with (Ret (Make_header (sz m v) (tg m v) Black)). cbn [bind].
  pose proof (tg_range m v). rewrite Tag_Make, Wosize_Make by auto using Black_in. rewrite ET.
  destruct T as [->|[->| ->]]; reflexivity.
Qed.
Example C16_functions_ex : extern_val (at_words [(4088, Make_header 1 249 White); (4096, 123456)]) 1 4096 = Raise FailExn.
Proof.
  eapply C16_functions with (t := 249) (ws := [123456]); [|discriminate|reflexivity|discriminate|auto|lia].
  constructor; [exists (Make_header 1 249 White); repeat split; try discriminate; reflexivity|].
  intros i w X. pose proof (zget_range _ _ _ X) as Y. change (zlen [123456]) with 1 in Y. assert (i = 0) as -> by lia.
  vm_compute in X. inversion X. reflexivity.
Qed.

(** ** C18 *)
(** integers and atoms survive *)
Theorem C18_flat_partial : forall m v junk fuel, value_in m [] v -> (forall n, zlen (junk n) = n) ->
  exists s, string_mlval junk m fuel v = Ret s /\ forall m0 atoms alloc, atoms_ok m0 atoms ->
    exists v', mlval_string atoms alloc m0 s = Ret (v', m0) /\ copy_of m v m0 v'.
Proof.
  intros m v junk fuel V J. destruct (extern_flat m fuel v V) as (w & C & E). unfold string_mlval. rewrite E. cbn [bind].
  change (zlen (@nil Z)) with 0. change (0 =? 0) with true. cbv iota. unfold alloc_string. change ((8 + 8) / 8) with 2.
  assert (WR : 0 <= w < two64) by (destruct V as [R _]; destruct C as [[-> _]|(t & _ & -> & T & _)]; unfold two64 in *; lia).
  specialize (J (8 * 2)).
  destruct (putn_spec (junk (8 * 2)) (8 * 2 - 8) (repeat 0 8)) as (s1 & E1 & L1 & _); [lia|change (zlen (repeat 0 8)) with 8; lia|]. rewrite E1. cbn [bind].
  destruct (putn_spec s1 (8 * 2 - 1) [(8 * 2 - 1 - 8) mod 256]) as (s2 & E2 & L2 & _); [lia|change (zlen [(8 * 2 - 1 - 8) mod 256]) with 1; lia|]. rewrite E2. cbn [bind].
  destruct (putn_spec s2 0 (le_bytes 0)) as (s3 & E3 & L3 & G3); [lia|change (zlen (le_bytes 0)) with 8; lia|]. rewrite E3. cbn [bind].
  destruct (putn_spec s3 8 (le_bytes w)) as (s4 & E4 & L4 & G4); [lia|change (zlen (le_bytes w)) with 8; lia|]. rewrite E4.
  exists s4. split; [reflexivity|]. intros m0 atoms alloc AO. change (zlen (le_bytes w)) with 8 in G4. change (zlen (le_bytes 0)) with 8 in G3.
  assert (H0 : getn s4 0 8 = Ret (le_bytes 0)).
  { rewrite getn_ok by lia. f_equal. apply list_ext. intros k. rewrite zget_firstn, zget_skipn by lia.
    destruct (Z.ltb_spec k 8).
    - destruct (Z.ltb_spec k 0); [now rewrite zget_none by lia|]. rewrite G4, G3. destruct (Z.leb_spec 8 (0 + k)); [lia|]. cbn [andb].
      destruct (Z.leb_spec 0 (0 + k)); [|lia]. destruct (Z.ltb_spec (0 + k) (0 + 8)); [|lia]. cbn [andb]. f_equal. lia.
    - rewrite zget_none; [reflexivity|]. change (zlen (le_bytes 0)) with 8. lia. }
  assert (H8 : getn s4 8 8 = Ret (le_bytes w)).
  { rewrite getn_ok by lia. f_equal. apply list_ext. intros k. rewrite zget_firstn, zget_skipn by lia.
    destruct (Z.ltb_spec k 8).
    - destruct (Z.ltb_spec k 0); [now rewrite zget_none by lia|]. rewrite G4. destruct (Z.leb_spec 8 (8 + k)); [|lia].
      destruct (Z.ltb_spec (8 + k) (8 + 8)); [|lia]. cbn [andb]. f_equal. lia.
    - rewrite zget_none; [reflexivity|]. change (zlen (le_bytes w)) with 8. lia. }
  unfold mlval_string. rewrite H0. cbn [bind]. change (word_of (le_bytes 0) =? 0) with true. cbv iota. rewrite H8. cbn [bind].
  rewrite word_le by exact WR. eexists. split; [reflexivity|]. now apply flat_read.
Qed.
Example C18_flat_ex : exists s, string_mlval (fun n => repeat 170 (Z.to_nat n)) (fun _ => None) 0 (two64 - 1) = Ret s /\
  mlval_string reader_atoms reader_alloc reader_mem s = Ret (two64 - 1, reader_mem).
Proof. eexists. split; [vm_compute; reflexivity|]. reflexivity. Qed.

(** no block survives: the bytes of the structure are copied over the upper half of its size, so the reader
    sees a size of at least 768 * 2^32 words and fails, whatever its memory and allocator *)
Theorem C18_block : forall m G v junk fuel, graph m G -> In v G -> words m G < 2 ^ 28 -> (length G <= fuel)%nat ->
  (forall n, 0 <= n -> zlen (junk n) = n) ->
  exists s, string_mlval junk m fuel v = Ret s /\ forall m0 atoms alloc,
    mlval_string atoms alloc m0 s = Raise FailExn \/ mlval_string atoms alloc m0 s = Raise OutOfMemory.
Proof.
  intros m G v junk fuel GR VG W F J. destruct (in_G m G GR v VG) as (VR & V8 & BL & SZ & SP & DT & FR & FS).
  assert (V : value_in m G v) by (split; [unfold two63, two64 in *; lia|now right; right]).
  assert (VO : is_long v = false) by (apply even_mod; lia).
  destruct (emit_all_ok m G GR v fuel V F) as (L & E & I & N & S & D & C).
  assert (NW : forall a, In a G -> 0 <= sz m a) by (intros a Ha; apply (in_G m G GR) in Ha; lia).
  pose proof (words_incl m L G N I NW) as WL.
  destruct C as [->|((L' & EL) & _)]; [exfalso; destruct S as [S|[S|S]]; [congruence|lia|destruct S]|].
  pose proof (length_le_whs m G L GR I) as LL. assert (L1 : 1 <= whs m L) by (rewrite EL in LL |- *; cbn [length] in LL; lia).
  assert (ZB : zlen (concat (map (seg m L) L)) = whs m L) by (apply zlen_concat_seg; intros a Ha; apply (zlen_seg m G GR); auto).
  set (blk := concat (map (seg m L) L)) in *.
  set (h := Make_header (sz m v) (tg m v) Black). assert (EB : exists r, blk = h :: r).
  { unfold blk. rewrite EL. cbn [map concat]. unfold seg. cbn [app]. eauto. }
  destruct EB as (r & EB).
  set (n := whs m L) in *. unfold string_mlval. rewrite E. cbn [bind]. rewrite ZB. destruct (Z.eqb_spec n 0); [lia|].
  unfold alloc_string. assert (EW : (4 + 8 * n + 8) / 8 = n + 1) by lia. rewrite EW. clear EW.
  assert (J' := J (8 * (n + 1)) ltac:(lia)). assert (ZL := zlen_le blk). rewrite ZB in ZL.
  destruct (putn_spec (junk (8 * (n + 1))) (8 * (n + 1) - 8) (repeat 0 8)) as (s1 & E1 & Z1 & _); [lia|change (zlen (repeat 0 8)) with 8; lia|]. rewrite E1. cbn [bind].
  set (pad := [(8 * (n + 1) - 1 - (4 + 8 * n)) mod 256]). assert (ZP : zlen pad = 1) by reflexivity.
  destruct (putn_spec s1 (8 * (n + 1) - 1) pad) as (s2 & E2 & Z2 & G2); [lia|lia|]. rewrite E2. cbn [bind].
  destruct (putn_spec s2 0 (le_bytes n)) as (s3 & E3 & Z3 & G3); [lia|change (zlen (le_bytes n)) with 8; lia|]. rewrite E3. cbn [bind].
  destruct (putn_spec s3 4 (concat (map le_bytes blk))) as (s4 & E4 & Z4 & G4); [lia|lia|]. rewrite E4.
  rewrite ZL in G4. rewrite ZP in G2. change (zlen (le_bytes n)) with 8 in G3.
  exists s4. split; [reflexivity|]. intros m0 atoms alloc.
  (* the length of the string *)
  assert (SL : string_length s4 = Ret (4 + 8 * n)).
  { unfold string_length, sub_raw. rewrite G4, G3, G2, Z4, Z3, Z2, Z1, J'.
    destruct (Z.leb_spec 4 (8 * (n + 1) - 1)); [|lia]. destruct (Z.ltb_spec (8 * (n + 1) - 1) (4 + 8 * n)); [lia|]. cbn [andb].
    destruct (Z.leb_spec 0 (8 * (n + 1) - 1)); [|lia]. destruct (Z.ltb_spec (8 * (n + 1) - 1) (0 + 8)); [lia|]. cbn [andb].
    destruct (Z.leb_spec (8 * (n + 1) - 1) (8 * (n + 1) - 1)); [|lia].
    destruct (Z.ltb_spec (8 * (n + 1) - 1) (8 * (n + 1) - 1 + 1)); [|lia]. cbn [andb]. rewrite Z.sub_diag.
    change (zget pad 0) with (Some ((8 * (n + 1) - 1 - (4 + 8 * n)) mod 256)). cbn [bind]. f_equal. lia. }
  (* the size read *)
  set (hb := firstn 4 (le_bytes h)).
  assert (H0 : getn s4 0 8 = Ret (firstn 4 (le_bytes n) ++ hb)).
  { rewrite getn_ok by lia. f_equal. apply list_ext. intros k. rewrite zget_firstn, zget_skipn, zget_app by lia.
    change (zlen (firstn 4 (le_bytes n))) with 4. destruct (Z.ltb_spec k 8).
    - destruct (Z.ltb_spec k 0). { destruct (Z.ltb_spec k 4); [|lia]. now rewrite zget_none by lia. }
      rewrite G4, G3. destruct (Z.ltb_spec k 4).
      + destruct (Z.leb_spec 4 (0 + k)); [lia|]. cbn [andb]. destruct (Z.leb_spec 0 (0 + k)); [|lia].
        destruct (Z.ltb_spec (0 + k) (0 + 8)); [|lia]. cbn [andb]. change 4%nat with (Z.to_nat 4). rewrite zget_firstn.
        destruct (Z.ltb_spec k 4); [|lia]. f_equal. lia.
      + destruct (Z.leb_spec 4 (0 + k)); [|lia]. destruct (Z.ltb_spec (0 + k) (4 + 8 * n)); [|lia]. cbn [andb].
        rewrite EB. cbn [map concat]. rewrite zget_app. change (zlen (le_bytes h)) with 8.
        destruct (Z.ltb_spec (0 + k - 4) 8); [|lia]. unfold hb. change 4%nat with (Z.to_nat 4). rewrite zget_firstn.
        destruct (Z.ltb_spec (k - 4) 4); [|lia]. f_equal; lia.
    - destruct (Z.ltb_spec k 4); [lia|]. rewrite zget_none; [reflexivity|]. change (zlen hb) with 4. lia. }
  unfold mlval_string. rewrite H0. cbn [bind].
  assert (EW : word_of (firstn 4 (le_bytes n) ++ hb) = n + 2 ^ 32 * (h mod 2 ^ 32)).
  { unfold hb, le_bytes. cbn [firstn app word_of]. lia. }
  rewrite EW. assert (HB : 768 <= h mod 2 ^ 32 < 2 ^ 32).
  { split; [|apply Z.mod_pos_bound; lia]. pose proof (tg_range m v). unfold h, Make_header, Black.
    replace (sz m v * 1024 + 768 + tg m v) with (1024 * sz m v + (768 + tg m v)) by lia.
    generalize (sz m v). intros z. lia. }
  set (q := h mod 2 ^ 32) in *. clearbody q. destruct (Z.eqb_spec (n + 2 ^ 32 * q) 0); [lia|].
  destruct (Z.gtb_spec (n + 2 ^ 32 * q - 1) Max_wosize) as [X|X]; [now left|]. unfold Max_wosize in X.
  destruct (alloc (n + 2 ^ 32 * q - 1)) as [[start color]|]; [|now right]. left. rewrite SL. cbn [bind].
  assert (u64 (u64 (8 * (n + 2 ^ 32 * q)) + 4) = 8 * (n + 2 ^ 32 * q) + 4) as -> by (unfold u64, two64; lia).
  destruct (Z.gtb_spec (8 * (n + 2 ^ 32 * q) + 4) (4 + 8 * n)); [reflexivity|lia].
Qed.
(** the pair (1, 2) *)
Definition pair_mem : memory := at_words [(4088, Make_header 2 0 White); (4096, 3); (4104, 5)].
Theorem C18_refuted : exists m G v, graph m G /\ In v G /\ words m G = 3 /\
  forall junk, (forall n, 0 <= n -> zlen (junk n) = n) -> exists s, string_mlval junk m 1 v = Ret s /\
    forall m0 atoms alloc, mlval_string atoms alloc m0 s = Raise FailExn \/ mlval_string atoms alloc m0 s = Raise OutOfMemory.
Proof.
  assert (GR : graph pair_mem [4096]).
  { constructor; [repeat constructor; cbn; tauto|]. intros a [<-|[]]. split; [unfold two63; lia|]. split; [reflexivity|].
    exists 0, [3; 5]. split.
    - constructor; [exists (Make_header 2 0 White); repeat split; try discriminate; reflexivity|].
      intros i w X. pose proof (zget_range _ _ _ X) as Y. change (zlen [3; 5]) with 2 in Y. assert (i = 0 \/ i = 1) as [-> | ->] by lia;
        vm_compute in X; inversion X; reflexivity.
    - split; [discriminate|]. split; [unfold data_tag; lia|]. split; [repeat constructor; vm_compute; discriminate || reflexivity|].
      intros _. repeat (apply Forall_cons; [split; [vm_compute; split; [discriminate|reflexivity]|left; reflexivity]|]). apply Forall_nil. }
  exists pair_mem, [4096], 4096. split; [exact GR|]. split; [now left|]. split; [reflexivity|]. intros junk J.
  apply (C18_block pair_mem [4096]); auto; try reflexivity. now left.
Qed.
(** the string made of an integer does not have its length: -240 for ~1 *)
Theorem C18_length_refuted : exists v s, string_mlval (fun n => repeat 0 (Z.to_nat n)) (fun _ => None) 0 v = Ret s /\
  string_length s = Ret (-240).
Proof. exists (two64 - 1). eexists. split; [vm_compute; reflexivity|]. reflexivity. Qed.

Print Assumptions C16_round_trip_partial.
Print Assumptions C16_immediate.
Print Assumptions C16_immediate_refuted.
Print Assumptions C16_weak_refuted.
Print Assumptions C16_functions.
Print Assumptions C18_flat_partial.
Print Assumptions C18_block.
Print Assumptions C18_refuted.
Print Assumptions C18_length_refuted.
