(** Proofs about input: the block written is read back as a copy. *)
From Verif Require Import Base ArrayLib Mem Io_Model Extern_Model Extern_Spec Extern_Tab Extern_Proofs.

(** ** Words and bytes *)
Lemma word_le w : 0 <= w < two64 -> word_of (le_bytes w) = w.
Proof. unfold two64. intros H. unfold word_of, le_bytes. lia. Qed.
Lemma words_le : forall b r, Forall (fun w => 0 <= w < two64) b -> words_of (length b) (concat (map le_bytes b) ++ r) = b.
Proof.
  induction b as [|w b IH]; intros r F; [reflexivity|]. inversion_clear F as [|? ? Fw Fb]. cbn [length words_of map concat].
  rewrite <- app_assoc. change (firstn 8 (le_bytes w ++ concat (map le_bytes b) ++ r)) with (le_bytes w).
  change (skipn 8 (le_bytes w ++ concat (map le_bytes b) ++ r)) with (concat (map le_bytes b) ++ r).
  rewrite word_le, IH; auto.
Qed.
Lemma zlen_le b : zlen (concat (map le_bytes b)) = 8 * zlen b.
Proof.
  induction b as [|w b IH]; [reflexivity|]. cbn [map concat]. rewrite zlen_app, zlen_cons, IH.
  change (zlen (le_bytes w)) with 8. lia.
Qed.
Lemma get_word_bytes w r : 0 <= w < 4294967296 -> get_word (word_bytes w ++ r) = Ret (w, r).
Proof.
  intros H. unfold word_bytes, get_word. cbn [app]. unfold to_unsigned. rewrite !Z.shiftr_div_pow2 by lia. do 2 f_equal. lia.
Qed.

Lemma odd_mod v : Z.odd v = true <-> v mod 2 = 1.
Proof. rewrite Zodd_mod. destruct (Zeq_bool (v mod 2) 1) eqn:E; [apply Zeq_is_eq_bool in E|apply Zeq_bool_neq in E]; split; congruence. Qed.
Lemma even_mod v : v mod 2 = 0 -> Z.odd v = false.
Proof. intros H. destruct (Z.odd v) eqn:E; [apply odd_mod in E; congruence|reflexivity]. Qed.

Section In.
Variable m : memory.
Variable G : list Z.
Hypothesis GR : graph m G.
Variables atoms start color : Z.
Hypothesis COL : List.In color [0; 256; 512; 768].
Notation offs := (offs m). Notation sz := (sz m). Notation tg := (tg m). Notation flds := (flds m).
Notation tr := (tr m). Notation whs := (whs m).

Definition adj := adjust atoms start.
Definition seg2 (L : list Z) (a : Z) : list Z :=
  Make_header (sz a) (tg a) color :: (if tg a <? 251 then map (fun v => adj (tr L v)) (flds a) else flds a).
Lemma zlen_seg2 L a : List.In a G -> zlen (seg2 L a) = 1 + sz a.
Proof.
  intros H. apply (in_G m G GR) in H. unfold seg2. rewrite zlen_cons. destruct (tg a <? 251); rewrite ?zlen_map; lia.
Qed.
Lemma adjust_fields_ok : forall ws pre post,
  adjust_fields atoms start (length ws) (zlen pre) (pre ++ ws ++ post) = Ret (pre ++ map adj ws ++ post).
Proof.
  induction ws as [|v ws IH]; intros pre post; cbn [adjust_fields length]; [reflexivity|]. cbn [app map].
  rewrite sub_raw_mid. cbn [bind]. rewrite update_raw_mid. cbn [bind]. fold (adj v).
  specialize (IH (pre ++ [adj v]) post). rewrite zlen_app in IH. change (zlen [adj v]) with 1 in IH.
  rewrite <- !app_assoc in IH. exact IH.
Qed.
Lemma adjust_pointers_ok L : incl L G -> forall L2 fuel pre, incl L2 G -> (length L2 <= fuel)%nat ->
  adjust_pointers atoms fuel start color (zlen pre) (pre ++ concat (map (seg m L) L2)) =
  Ret (pre ++ concat (map (seg2 L) L2)).
Proof.
  intros IL. induction L2 as [|a L2 IH]; intros fuel pre I F.
  - cbn [map concat]. rewrite app_nil_r. destruct fuel; cbn [adjust_pointers]; now rewrite Z.ltb_irrefl.
  - destruct fuel as [|fuel]; [cbn in F; lia|]. assert (AG : List.In a G) by (apply I; now left).
    destruct (in_G m G GR a AG) as (_ & _ & BL & SZ & SP & DT & FR & FS). pose proof (tg_range m a) as TR.
    cbn [map concat adjust_pointers]. set (rest := concat (map (seg m L) L2)).
    assert (ZR : 0 <= zlen rest) by apply zlen_nonneg.
    rewrite !zlen_app, (zlen_seg m G GR L a AG). destruct (Z.ltb_spec (zlen pre) (zlen pre + (1 + sz a + zlen rest))); [|lia].
    unfold seg at 1. cbn [app]. rewrite sub_raw_mid. cbn [bind]. unfold seg at 1. cbn [app]. rewrite update_raw_mid. cbn [bind].
    rewrite Tag_Make, Wosize_Make by auto using Black_in. rewrite Z.geb_leb. unfold No_scan_tag.
    assert (IH' := IH fuel (pre ++ seg2 L a) (fun x Hx => I x (or_intror Hx))). cbn [length] in F.
    rewrite zlen_app, (zlen_seg2 L a AG) in IH'.
    destruct (Z.leb_spec 251 (tg a)) as [SC|SC].
    + assert (E2 : seg2 L a = Make_header (sz a) (tg a) color :: flds a)
        by (unfold seg2; destruct (Z.ltb_spec (tg a) 251); [lia|reflexivity]).
      rewrite E2 in IH' |- *. destruct (Z.ltb_spec (tg a) 251); [lia|]. rewrite <- !app_assoc in IH'. cbn [app] in IH'.
      replace (zlen pre + (1 + sz a)) with (zlen pre + 1 + sz a) in IH' by lia. fold rest in IH'. rewrite IH' by lia.
      reflexivity.
    + assert (E2 : seg2 L a = Make_header (sz a) (tg a) color :: map (fun v => adj (tr L v)) (flds a))
        by (unfold seg2; destruct (Z.ltb_spec (tg a) 251); [reflexivity|lia]).
      rewrite E2 in IH' |- *. destruct (Z.ltb_spec (tg a) 251); [|lia].
      replace (Z.to_nat (sz a)) with (length (map (tr L) (flds a))) by (rewrite map_length, SZ; unfold zlen; lia).
      pose proof (adjust_fields_ok (map (tr L) (flds a)) (pre ++ [Make_header (sz a) (tg a) color]) rest) as AF.
      rewrite zlen_app in AF. change (zlen [Make_header (sz a) (tg a) color]) with 1 in AF. rewrite <- !app_assoc in AF. cbn [app] in AF.
      rewrite AF. cbn [bind]. rewrite map_map. rewrite <- !app_assoc in IH'. cbn [app] in IH'.
      replace (zlen pre + (1 + sz a)) with (zlen pre + 1 + sz a) in IH' by lia. fold rest in IH'. rewrite IH' by lia.
      reflexivity.
Qed.
Lemma adjust_all L : incl L G -> forall fuel, (length L <= fuel)%nat ->
  adjust_pointers atoms fuel start color 0 (concat (map (seg m L) L)) = Ret (concat (map (seg2 L) L)).
Proof. intros I fuel F. exact (adjust_pointers_ok L I L fuel [] I F). Qed.

(** ** The words written fit in 64 bits *)
Lemma offs_range L a : In a L -> incl L G -> 8 <= offs 0 L a <= 8 * whs L.
Proof.
  enough (forall p, In a L -> incl L G -> 8 * p + 8 <= offs p L a <= 8 * (p + whs L)) as H by (intros; specialize (H 0); lia).
  induction L as [|b L IH]; intros p Ha I; [destruct Ha|]. cbn [Extern_Proofs.offs]. rewrite whs_cons.
  assert (0 < sz b) by (specialize (I b (or_introl eq_refl)); apply (in_G m G GR) in I; lia).
  assert (0 <= whs L).
  { assert (forall c, In c L -> 0 <= sz c) as P by (intros c Hc; specialize (I c (or_intror Hc)); apply (in_G m G GR) in I; lia).
    clear - P. induction L as [|c L IH]; [cbn; lia|]. rewrite whs_cons. pose proof (P c (or_introl eq_refl)).
    specialize (IH (fun x Hx => P x (or_intror Hx))). lia. }
  destruct (Z.eqb_spec a b); [lia|]. destruct Ha as [->|Ha]; [contradiction|].
  specialize (IH (p + 1 + sz b) Ha (fun x Hx => I x (or_intror Hx))). lia.
Qed.
Lemma offs_mod8 a : forall L p, offs p L a mod 8 = 0.
Proof. induction L as [|b L IH]; intros p; cbn [Extern_Proofs.offs]; [reflexivity|]. destruct (a =? b); [lia|apply IH]. Qed.
Lemma tr_range L v : incl L G -> whs L < two63 / 8 -> settled m L v -> 0 <= v < two64 -> 0 <= tr L v < two64.
Proof.
  intros I W S V. unfold Extern_Proofs.tr. destruct (is_long v) eqn:O; [exact V|]. pose proof (tg_range m v).
  destruct (Z.eqb_spec (sz v) 0); [unfold two64; lia|]. destruct S as [S|[S|S]]; [congruence|contradiction|].
  pose proof (offs_range L v S I). unfold two64, two63 in *. lia.
Qed.
Lemma seg_range L a : incl L G -> whs L < two63 / 8 -> In a L -> done m L a -> Forall (fun w => 0 <= w < two64) (seg m L a).
Proof.
  intros I W A D. assert (AG := I a A). destruct (in_G m G GR a AG) as (_ & _ & BL & SZ & SP & DT & FR & FS).
  destruct (block_flds m a _ _ BL) as (_ & _ & _ & _ & _ & HR). pose proof (tg_range m a).
  unfold seg. constructor.
  - unfold Make_header, Black, Extern_Proofs.sz, Wosize_hd, two64 in *. lia.
  - destruct (Z.ltb_spec (tg a) 251) as [T|T]; [|exact FR]. apply Forall_map. rewrite Forall_forall in *.
    intros w Hw. apply tr_range; auto. specialize (D T). rewrite Forall_forall in D. auto.
Qed.

(** ** The new memory *)
Variable m0 : memory.        (* the memory of the reader *)
Hypothesis AO : atoms_ok m0 atoms.
Hypothesis S0 : 0 < start /\ start mod 8 = 0.
Definition region (L : list Z) : list Z := concat (map (seg2 L) L).
Definition mem' (L : list Z) : memory := with_region m0 start (region L).
Variable room : Z.
Hypothesis FRESH : forall x, start <= x < start + 8 * room -> m0 x = None.

Lemma zlen_region L : incl L G -> zlen (region L) = whs L.
Proof. intros I. apply zlen_concat_seg. intros a Ha. apply zlen_seg2. auto. Qed.
Lemma mem_extends L : incl L G -> whs L <= room -> NoDup L -> extends m0 (mem' L).
Proof.
  intros I RM N x w E. unfold mem', with_region. rewrite zlen_region by exact I.
  destruct ((start <=? x) && (x <? start + 8 * whs L) && (x mod 8 =? 0)) eqn:C; [|exact E].
  exfalso. rewrite (FRESH x) in E by lia. discriminate.
Qed.
Lemma mem_at L i w : zget (region L) i = Some w -> mem' L (start + 8 * i) = Some w.
Proof.
  intros E. pose proof (zget_range _ _ _ E). unfold mem', with_region.
  assert ((start <=? start + 8 * i) && (start + 8 * i <? start + 8 * zlen (region L)) && ((start + 8 * i) mod 8 =? 0) = true) as -> by lia.
  replace ((start + 8 * i - start) / 8) with i by lia. exact E.
Qed.
Lemma block_extends m1 m2 a t ws : extends m1 m2 -> block m1 a t ws -> block m2 a t ws.
Proof.
  intros E [(hd & H & R) W]. constructor.
  - exists hd. split; [now apply E|exact R].
  - intros i w X. apply E. now apply W.
Qed.
(** the block read for [a] *)
Lemma block_new L a : incl L G -> whs L <= room -> NoDup L -> In a L ->
  block (mem' L) (start + offs 0 L a) (tg a) (if tg a <? 251 then map (fun v => adj (tr L v)) (flds a) else flds a).
Proof.
  intros I RM N A. destruct (in_split a L A) as (L1 & L2 & EL).
  assert (NI : ~ In a L1).
  { rewrite EL in N. apply NoDup_remove_2 in N. intros X. apply N. apply in_or_app. now left. }
  assert (EO : offs 0 L a = 8 * (whs L1 + 1)) by (rewrite EL, offs_new by exact NI; lia).
  assert (AG : In a G) by auto. destruct (in_G m G GR a AG) as (_ & _ & BL & SZ & SP & DT & FR & FS).
  destruct (block_flds m a _ _ BL) as (_ & _ & _ & _ & _ & HR). pose proof (tg_range m a) as TR.
  set (ws := if tg a <? 251 then map (fun v => adj (tr L v)) (flds a) else flds a).
  assert (ER : region L = concat (map (seg2 L) L1) ++ (Make_header (sz a) (tg a) color :: ws) ++ concat (map (seg2 L) L2)).
  { unfold region. rewrite EL at 2. rewrite map_app, concat_app. reflexivity. }
  assert (Z1 : zlen (concat (map (seg2 L) L1)) = whs L1).
  { apply zlen_concat_seg. intros b Hb. apply zlen_seg2. apply I. rewrite EL. apply in_or_app. now left. }
  assert (ZW : zlen ws = sz a) by (unfold ws; destruct (tg a <? 251); rewrite ?zlen_map; lia).
  pose proof (zlen_nonneg (concat (map (seg2 L) L1))) as N1. rewrite Z1 in N1.
  rewrite EO. constructor.
  - exists (Make_header (sz a) (tg a) color). split; [|split; [|split]].
    + replace (start + 8 * (whs L1 + 1) - 8) with (start + 8 * whs L1) by lia. apply mem_at. rewrite ER, zget_app, Z1.
      destruct (Z.ltb_spec (whs L1) (whs L1)); [lia|]. rewrite Z.sub_diag. reflexivity.
    + now apply (Tag_Make (sz a) (tg a) color).
    + rewrite ZW. now apply (Wosize_Make (sz a) (tg a) color).
    + assert (0 <= color <= 768) by (cbn in COL; lia). unfold Make_header, Extern_Proofs.sz, Wosize_hd, two64 in *. lia.
  - intros i w E. pose proof (zget_range _ _ _ E). replace (start + 8 * (whs L1 + 1) + 8 * i) with (start + 8 * (whs L1 + 1 + i)) by lia.
    apply mem_at. rewrite ER, zget_app, Z1. destruct (Z.ltb_spec (whs L1 + 1 + i) (whs L1)); [lia|].
    rewrite zget_app, zlen_cons. destruct (Z.ltb_spec (whs L1 + 1 + i - whs L1) (1 + zlen ws)); [|lia].
    rewrite zget_cons. destruct (Z.eqb_spec (whs L1 + 1 + i - whs L1) 0); [lia|].
    replace (whs L1 + 1 + i - whs L1 - 1) with i by lia. exact E.
Qed.
Lemma offs_inj L : incl L G -> forall a b p, In a L -> In b L -> offs p L a = offs p L b -> a = b.
Proof.
  intros I a b. revert I. induction L as [|c L IH]; intros I p Ha Hb E; [destruct Ha|]. cbn [Extern_Proofs.offs] in E.
  assert (0 < sz c) as C by (specialize (I c (or_introl eq_refl)); apply (in_G m G GR) in I; lia).
  assert (IL : incl L G) by (intros x Hx; apply I; now right).
  assert (ST : forall x, In x L -> 8 * (p + 1) < offs (p + 1 + sz c) L x).
  { intros x Hx. enough (forall q, 8 * q + 8 <= offs q L x) as Y by (specialize (Y (p + 1 + sz c)); lia).
    clear - Hx IL GR. induction L as [|d L IH]; intros q; [destruct Hx|]. cbn [Extern_Proofs.offs].
    assert (0 < sz d) by (specialize (IL d (or_introl eq_refl)); apply (in_G m G GR) in IL; lia).
    destruct (Z.eqb_spec x d); [lia|]. destruct Hx as [->|Hx]; [contradiction|].
    specialize (IH (fun y Hy => IL y (or_intror Hy)) Hx (q + 1 + sz d)). lia. }
  destruct (Z.eqb_spec a c) as [Ea|Ea], (Z.eqb_spec b c) as [Eb|Eb].
  - congruence.
  - destruct Hb as [->|Hb]; [contradiction|]. specialize (ST b Hb). lia.
  - destruct Ha as [->|Ha]; [contradiction|]. specialize (ST a Ha). lia.
  - destruct Ha as [->|Ha]; [contradiction|]. destruct Hb as [->|Hb]; [contradiction|]. eapply IH; eauto.
Qed.
(** what a settled value becomes *)
Lemma same_adj L v : incl L G -> whs L <= room -> NoDup L -> settled m L v -> value_in m G v ->
  same_value m L (fun a => start + offs 0 L a) (mem' L) v (adj (tr L v)).
Proof.
  intros I RM N S (R & V). unfold same_value, Extern_Proofs.tr. destruct (is_long v) eqn:O.
  { left. split; [exact O|]. unfold adj, adjust. unfold is_long in O.
    assert (v mod 4 = 1 \/ v mod 4 = 3) as [-> | ->] by (apply odd_mod in O; lia); reflexivity. }
  right. unfold is_long in O. destruct (Z.eqb_spec (sz v) 0) as [Z0|Z0].
  - left. assert (BV : exists t, block m v t []).
    { destruct V as [V|[[_ V]|V]]; [congruence|exact V|]. apply (in_G m G GR) in V. lia. }
    destruct BV as (t & BV). destruct (block_flds m v t [] BV) as (_ & T & _). pose proof (tg_range m v) as TR.
    unfold adj, adjust. replace ((4 * tg v + 2) mod 4) with 2 by lia. replace ((4 * tg v + 2) / 4) with (tg v) by lia.
    destruct AO as [A8 AB]. specialize (AB (tg v) TR). split; [exact O|].
    split; [unfold Atom; apply even_mod; lia|].
    exists t. split; [exact BV|]. rewrite <- T. unfold Atom. eapply block_extends; [|exact AB]. now apply mem_extends.
  - right. destruct S as [S|[S|S]]; [unfold is_long in S; congruence|contradiction|]. split; [exact S|].
    unfold adj, adjust. pose proof (offs_mod8 v L 0). replace (offs 0 L v mod 4) with 0 by lia. reflexivity.
Qed.
Lemma copy_ok L v : incl L G -> whs L <= room -> NoDup L -> settled m L v -> value_in m G v -> Forall (done m L) L ->
  copy_of m v (mem' L) (adj (tr L v)).
Proof.
  intros I RM N S V D. exists L, (fun a => start + offs 0 L a). split; [now apply same_adj|]. split.
  - intros a b Ha Hb E. apply (offs_inj L I a b 0); auto. lia.
  - intros a Ha. assert (AG : In a G) by auto. destruct (in_G m G GR a AG) as (_ & A8 & BL & SZ & SP & DT & FR & FS).
    pose proof (offs_mod8 a L 0). split; [apply even_mod; lia|].
    split; [apply even_mod; lia|].
    exists (tg a), (flds a), (if tg a <? 251 then map (fun v => adj (tr L v)) (flds a) else flds a).
    split; [exact BL|]. split; [now apply block_new|]. split.
    { intros X. rewrite X in SZ. unfold zlen in SZ. cbn in SZ. lia. }
    unfold scanned. split.
    + intros T. destruct (Z.ltb_spec (tg a) 251); [|lia]. rewrite Forall_forall in D. specialize (D a Ha T). specialize (FS T).
      clear BL SZ FR. revert D FS. induction (flds a) as [|w ws IHw]; intros D FS; [constructor|]. inversion_clear D. inversion_clear FS.
      constructor; [now apply same_adj|]. now apply IHw.
    + intros T. destruct (Z.ltb_spec (tg a) 251); [lia|]. reflexivity.
Qed.
End In.
