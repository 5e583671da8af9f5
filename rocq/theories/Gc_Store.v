(** The write barrier and weak pointers: modify, writes of data and weak_sub keep the invariant. *)
From Coq Require Import Sorting.Sorted.
From Verif Require Import Base ArrayLib Gc_Model Gc_Spec Gc_Heap Gc_Dark Gc_Inv.

Section Store.
Variables young_start young_end : Z.
Variable grow_ok : st -> bool.
Variable outside : Z -> Prop.
Notation is_young := (is_young young_start young_end).
Notation layout := (layout young_start young_end outside).
Notation stack_ok := (stack_ok young_start young_end).
Notation pure_ok := (pure_ok young_start young_end).
Notation greyer := (greyer young_start young_end).
Notation known := (known outside).
Notation sv := (sv young_start young_end).
Notation good := (good young_start young_end outside).
Notation some_block := (some_block outside).
Notation wf := (wf young_start young_end outside).
Notation yb := (yb young_start young_end).
Notation rtok := (rtok young_start young_end).
Notation closed := (closed young_start young_end outside).
Notation wprot := (wprot young_start young_end).
Notation prot := (prot young_start young_end).
Notation weak_list := (weak_list young_start young_end).
Notation marking := (marking young_start young_end).
Notation resting := (resting young_start young_end).
Notation core := (core young_start young_end outside).
Notation inv := (inv young_start young_end outside).
Hypothesis ZO : zone young_start young_end outside.

(** other contents for the fields of one block *)
Section Contents.
Variables (s s1 : st) (a : Z) (b : block) (l : list Z).
Hypothesis A : hget (hp s) a = Some b.
Hypothesis LL : zlen l = zlen (fs b).
Hypothesis H : forall c, hget (hp s1) c = if c =? a then Some (set_fs b l) else hget (hp s) c.
Hypothesis RO : roots s1 = roots s.
Hypothesis GL : globals s1 = globals s.
Hypothesis YP : young_ptr s1 = young_ptr s.
Hypothesis CH : chunks s1 = chunks s.
Hypothesis G : gc s1 = gc s.

Lemma cont_fw c d : hget (hp s) c = Some d -> exists d', hget (hp s1) c = Some d' /\ col d' = col d /\ tag d' = tag d /\ zlen (fs d') = zlen (fs d) /\
  (c <> a -> d' = d) /\ (c = a -> d = b /\ d' = set_fs b l).
Proof.
  intros C. rewrite H. destruct (Z.eqb_spec c a) as [->|N].
  - assert (d = b) as -> by congruence. eexists. split; [reflexivity|]. cbn. repeat split; auto. congruence.
  - exists d. repeat split; auto; contradiction.
Qed.
Lemma cont_bw c d' : hget (hp s1) c = Some d' -> exists d, hget (hp s) c = Some d /\ col d' = col d /\ tag d' = tag d /\ zlen (fs d') = zlen (fs d) /\
  (c <> a -> d' = d) /\ (c = a -> d = b /\ d' = set_fs b l).
Proof.
  rewrite H. destruct (Z.eqb_spec c a) as [->|N]; intros C.
  - injection C as <-. exists b. cbn. repeat split; auto. congruence.
  - exists d'. repeat split; auto; contradiction.
Qed.
Lemma cont_sv c : sv s1 c <-> sv s c.
Proof.
  unfold Gc_Inv.sv. rewrite G. split; intros (d & D & K).
  - destruct (cont_bw _ _ D) as (d' & D' & C' & _). exists d'. rewrite <- C'. auto.
  - destruct (cont_fw _ _ D) as (d' & D' & C' & _). exists d'. rewrite C'. auto.
Qed.
Lemma cont_good v : good s1 v <-> good s v.
Proof. unfold Gc_Inv.good. now rewrite cont_sv. Qed.
Lemma cont_wf : wf s -> wf s1.
Proof.
  intros W. destruct W. constructor; rewrite ?YP, ?CH, ?GL; auto.
  - eapply layout_same; [exact w_lay|exact CH|]. intros c d Y D. destruct (cont_bw _ _ D) as (d' & D' & _ & _ & L & _). eauto.
  - intros c d D Y. destruct (cont_bw _ _ D) as (d' & D' & C & T & L & _). rewrite C, T, L. eauto.
  - intros c d D Y. destruct (cont_bw _ _ D) as (d' & D' & C & T & L & _). rewrite C. eauto.
  - intros c d D T'. destruct (cont_bw _ _ D) as (d' & D' & C & T & L & _). rewrite L. apply (w_wlen c d' D'). congruence.
Qed.
Lemma cont_closed : closed s -> (tag b <= Weak_tag -> sv s a -> forall y, In y l -> In y (fs b) \/ good s y) -> closed s1.
Proof.
  intros C N. destruct C. constructor; rewrite ?RO, ?GL.
  - intros v I. apply cont_good. auto.
  - apply cont_good. auto.
  - intros c d v S D T I. rewrite cont_sv in S. apply cont_good. destruct (cont_bw _ _ D) as (d' & D' & _ & T' & _ & K1 & K2).
    destruct (Z.eq_dec c a) as [E|E].
    + destruct (K2 E) as [-> ->]. subst c. cbn in *. destruct (N ltac:(unfold Weak_tag, No_scan_tag in *; lia) S v I) as [Q|Q]; [eauto|exact Q].
    + rewrite (K1 E) in *. eauto.
  - intros c d v S D T I. rewrite cont_sv in S. rewrite G. rewrite cont_good. destruct (cont_bw _ _ D) as (d' & D' & _ & T' & _ & K1 & K2).
    assert (some_block s v -> some_block s1 v) as SB.
    { intros [Q|[Q|(e & E)]]; [now left|right; now left|]. right. right. destruct (cont_fw _ _ E) as (e' & E' & _). eauto. }
    destruct (Z.eq_dec c a) as [E|E].
    + destruct (K2 E) as [-> ->]. subst c. cbn in *. destruct (N ltac:(lia) S v I) as [Q|Q]; [|now left].
      destruct (cl_weak a b v) as [Q'|(Q1 & Q2 & Q3)]; auto.
    + rewrite (K1 E) in *. destruct (cl_weak c d' v) as [Q'|(Q1 & Q2 & Q3)]; auto.
Qed.
Lemma cont_weak_list : weak_list s -> weak_list s1.
Proof.
  intros Q c. rewrite G. intros I. destruct (Q c I) as (Y & d & D & T & C). split; [exact Y|]. destruct (cont_fw _ _ D) as (d' & D' & C' & T' & _).
  exists d'. repeat split; congruence.
Qed.
Lemma cont_rest : resting s -> resting s1.
Proof.
  intros R. destruct R. constructor; rewrite ?G, ?CH; auto.
  - intros c d Y D. destruct (cont_bw _ _ D) as (d' & D' & C' & _). rewrite C'. eauto.
  - intros c d Y D. destruct (cont_bw _ _ D) as (d' & D' & C' & _). rewrite C'. eauto.
  - now apply cont_weak_list.
Qed.
Lemma cont_stack : stack_ok s -> stack_ok s1.
Proof.
  intros S. destruct S. constructor; rewrite ?G; auto. intros v I. destruct (so_gray v I) as (Y & d & D & C). split; [exact Y|].
  destruct (cont_fw _ _ D) as (d' & D' & C' & _). exists d'. split; congruence.
Qed.
Lemma cont_pure : pure_ok s -> pure_ok s1.
Proof.
  intros P Q c d Y D C. rewrite G in *. destruct (cont_bw _ _ D) as (d' & D' & C' & _). apply (P Q c d' Y D'). congruence.
Qed.

(** the value [x] overwritten is dark in [s2]; then whatever was protected still is *)
Lemma cont_prot s2 v x : greyer s1 s2 -> (is_young a = true \/ forall d, is_young x = false -> hget (hp s2) x = Some d -> col d <> White) ->
  (tag b < No_scan_tag -> forall y, In y (fs b) -> In y l \/ y = x) -> prot s v -> prot s2 v.
Proof.
  intros GR X OLD P.
  assert (forall v, wprot s v -> prot s2 v) as W.
  { clear P v. intros v P. induction P as [c d v Y D T I C|c d v Y D T I C W IH]; intros YV dv DV CV.
    - destruct (cont_fw _ _ D) as (d1 & D1 & C1 & T1 & _ & K1 & K2). destruct (g_fw _ _ _ _ GR _ _ D1) as (d2 & D2 & T2 & F2 & [C2|(C2 & _)]); [|congruence].
      assert (In v (fs d1) \/ v = x) as [I'|E].
      { destruct (Z.eq_dec c a) as [E|E].
        - destruct (K2 E) as [-> ->]. cbn. auto.
        - rewrite (K1 E). auto. }
      + apply (wprot_gray _ _ s2 c d2); auto; congruence.
      + subst v. destruct (Z.eq_dec c a) as [E|E].
        * subst c. destruct X as [X|X]; [congruence|]. now elim (X dv YV DV).
        * apply (wprot_gray _ _ s2 c d2); auto; try congruence. rewrite F2, (K1 E). exact I.
    - destruct (cont_fw _ _ D) as (d1 & D1 & C1 & T1 & _ & K1 & K2). destruct (g_fw _ _ _ _ GR _ _ D1) as (d2 & D2 & T2 & F2 & CC).
      assert (In v (fs d2) -> wprot s2 v) as FIN.
      { intros I'. destruct CC as [C2|(_ & C2 & _)].
        - apply (wprot_white _ _ s2 c d2); auto; try congruence. apply (IH Y d2 D2). congruence.
        - apply (wprot_gray _ _ s2 c d2); auto; congruence. }
      destruct (Z.eq_dec c a) as [E|E].
      + destruct (K2 E) as [-> ->]. cbn in *. destruct (OLD T v I) as [I'|E']; [apply FIN; congruence|].
        subst v c. destruct X as [X|X]; [congruence|]. now elim (X dv YV DV).
      + apply FIN. rewrite F2, (K1 E). exact I. }
  intros YV dv DV CV. destruct (g_bw _ _ _ _ _ _ GR DV) as (d1 & D1 & _ & _ & [C1|(_ & C1 & _)]); [|congruence].
  destruct (cont_bw _ _ D1) as (d & D & C0 & _). apply (W v (P YV d D ltac:(congruence)) YV dv DV CV).
Qed.

Lemma cont_marking s2 x : wf s -> marking s -> greyer s1 s2 -> stack_ok s2 -> pure_ok s2 ->
  (is_young a = true \/ forall d, is_young x = false -> hget (hp s2) x = Some d -> col d <> White) ->
  (tag b < No_scan_tag -> forall y, In y (fs b) -> In y l \/ y = x) ->
  (tag b <= Weak_tag -> forall y, In y l -> In y (fs b) \/ prot s y) -> marking s2.
Proof.
  intros W M GR ST PU X OLD NEW.
  assert (forall v, prot s v -> prot s2 v) as PP by (intros v; apply (cont_prot s2 v x); auto).
  destruct M. constructor; auto.
  - rewrite (g_markhp _ _ _ _ GR), (g_chunk _ _ _ _ GR), (g_limit _ _ _ _ GR), (g_chunks _ _ _ _ GR), G, CH. auto.
  - eapply greyer_weak_list; eauto. now apply cont_weak_list.
  - rewrite (g_roots _ _ _ _ GR), RO. auto.
  - rewrite (g_globals _ _ _ _ GR), GL. auto.
  - intros c d v Y D T I. destruct (g_bw _ _ _ _ _ _ GR D) as (d1 & D1 & T1 & F1 & _). destruct (cont_bw _ _ D1) as (d0 & D0 & C0 & T0 & _ & K1 & K2).
    rewrite F1 in I. destruct (Z.eq_dec c a) as [E|E].
    + destruct (K2 E) as [-> ->]. subst c. cbn in *. destruct (NEW ltac:(unfold Weak_tag, No_scan_tag in *; lia) v I) as [Q|Q]; [|auto].
      apply PP. apply (mk_young a b v); auto. lia.
    + rewrite (K1 E) in *. apply PP. apply (mk_young c d0 v); auto. lia.
  - intros c d v Y D C T I. destruct (g_bw _ _ _ _ _ _ GR D) as (d1 & D1 & T1 & F1 & [C1|(_ & C1 & _)]); [|congruence].
    destruct (cont_bw _ _ D1) as (d0 & D0 & C0 & T0 & _ & K1 & K2).
    rewrite F1 in I. destruct (Z.eq_dec c a) as [E|E].
    + destruct (K2 E) as [-> ->]. subst c. cbn in *. destruct (NEW ltac:(unfold Weak_tag, No_scan_tag in *; lia) v I) as [Q|Q]; [|auto].
      apply PP. apply (mk_black a b v); auto; [congruence|lia].
    + rewrite (K1 E) in *. apply PP. apply (mk_black c d0 v); auto; [congruence|lia].
  - intros c d v Y D C T NI I. rewrite (g_weak _ _ _ _ GR), G in NI.
    destruct (g_bw _ _ _ _ _ _ GR D) as (d1 & D1 & T1 & F1 & [C1|(_ & C1 & _)]); [|congruence].
    destruct (cont_bw _ _ D1) as (d0 & D0 & C0 & T0 & _ & K1 & K2).
    rewrite F1 in I. destruct (Z.eq_dec c a) as [E|E].
    + destruct (K2 E) as [-> ->]. subst c. cbn in *. destruct (NEW ltac:(lia) v I) as [Q|Q]; [|auto].
      apply PP. apply (mk_bweak a b v); auto; [congruence|lia].
    + rewrite (K1 E) in *. apply PP. apply (mk_bweak c d0 v); auto; [congruence|lia].
Qed.
End Contents.

Lemma zset_len (l : list Z) i v l' : zset l i v = Some l' -> zlen l' = zlen l.
Proof. intros Z1. now destruct (zset_zget _ _ _ _ Z1) as (_ & ? & _). Qed.

(** ** Assignment *)
Lemma modify_ok s a b i v : inv s -> reach s a -> hget (hp s) a = Some b -> tag b <= Weak_tag -> 0 <= i < zlen (fs b) -> known s v ->
  exists s' l, modify young_start young_end grow_ok a i v s = Ret s' /\ inv s' /\ zset (fs b) i v = Some l /\
    roots s' = roots s /\ globals s' = globals s /\ phase (gc s') = phase (gc s) /\ sweep_hp (gc s') = sweep_hp (gc s) /\
    weak (gc s') = weak (gc s) /\
    (forall c, c <> a -> (zget (fs b) i = Some c -> phase (gc s) = Phase_mark -> is_young a = false -> False) -> hget (hp s') c = hget (hp s) c) /\
    (forall c d, hget (hp s') c = Some d -> exists d0, hget (hp s) c = Some d0 /\ tag d = tag d0 /\ (c <> a -> fs d = fs d0) /\ (c = a -> fs d = l)) /\
    (forall c d0, hget (hp s) c = Some d0 -> exists d, hget (hp s') c = Some d /\ tag d = tag d0 /\ (c <> a -> fs d = fs d0) /\ (c = a -> fs d = l)).
Proof.
  intros [C R] RA A T I KV. pose proof (c_wf _ _ _ _ C) as W. pose proof (c_closed _ _ _ _ C) as CL.
  pose proof (reach_good _ _ _ ZO s a W CL RA) as GA. pose proof (good_sv _ _ _ ZO s a b W GA A) as SA.
  pose proof (known_good _ _ _ ZO s v W CL KV) as GV.
  destruct (zget_some (fs b) i I) as (x & X). destruct (zset_some (fs b) i v I) as (l & Z1 & Z2 & Z3).
  unfold modify, rd. cbn [read wr]. rewrite A, X. cbn [bind]. rewrite Z1. cbn [bind]. set (s1 := set_hp s _).
  assert (forall c, hget (hp s1) c = if c =? a then Some (set_fs b l) else hget (hp s) c) as H by (intros c; unfold s1; cbn [hp set_hp]; apply hget_hput).
  assert (some_block s x) as GX.
  { destruct (Z_lt_dec (tag b) No_scan_tag) as [TS|TS].
    - apply (good_some young_start young_end). apply (cl_fields _ _ _ _ CL a b x); auto. eapply zget_In; eauto.
    - destruct (cl_weak _ _ _ _ CL a b x) as [Q|(_ & _ & Q)]; auto; [unfold No_scan_tag, Weak_tag in *; lia|eapply zget_In; eauto|].
      now apply (good_some young_start young_end). }
  assert (wf s1) as W1 by (apply (cont_wf s s1 a b l); auto).
  assert (closed s1) as CL1.
  { apply (cont_closed s s1 a b l); auto. intros _ _ y Y. destruct (zset_In _ _ _ _ _ Z1 Y) as [->|Q]; auto. }
  assert (is_in_heap s1 (a + 8 * i) = negb (is_young a)) as IH.
  { destruct (is_young a) eqn:Y.
    - apply (layout_young_out young_start young_end outside); [apply W1|]. destruct (w_young _ _ _ _ W _ _ A Y) as (_ & _ & _ & _ & Q).
      destruct (w_ptr _ _ _ _ W) as [[_ Q2] _]. unfold Gc_Model.is_young in *. lia.
    - apply (layout_in_heap_field young_start young_end outside s a b i); auto. apply W. }
  rewrite IH. destruct (is_young a) eqn:Y; cbn [negb].
  - (* a young block: just the store *)
    exists s1, l. split; [reflexivity|]. split; [|split; [reflexivity|]].
    + constructor.
      * constructor; auto.
        -- intros PM. apply (cont_marking s s1 a b l A Z2 H) with (x := x); auto; try apply greyer_refl.
           ++ apply (c_mark _ _ _ _ C PM).
           ++ apply (cont_stack s s1 a b l); auto. apply (mk_stack _ _ _ (c_mark _ _ _ _ C PM)).
           ++ apply (cont_pure s s1 a b l); auto. apply (mk_pure _ _ _ (c_mark _ _ _ _ C PM)).
           ++ intros _ y YI. eapply zset_In_old; eauto.
           ++ intros _ y YI. destruct (zset_In _ _ _ _ _ Z1 YI) as [->|Q]; [right|now left].
              apply (known_prot _ _ outside ZO s v (c_mark _ _ _ _ C PM) W KV).
        -- intros PM. apply (cont_rest s s1 a b l); auto. now apply (c_rest _ _ _ _ C).
      * destruct R. constructor; auto.
        -- intros c j J. destruct (r_in c j J) as (YC & d & y & D & TD & Q). split; [exact YC|]. exists d, y. rewrite H. destruct (Z.eqb_spec c a); [congruence|auto].
        -- intros c d j y YC D TD Q YY. rewrite H in D. destruct (Z.eqb_spec c a); [congruence|].
           destruct (r_all c d j y YC D TD Q YY) as (IN & e & E). split; [exact IN|]. rewrite H. destruct (y =? a); eauto.
    + do 5 (split; [reflexivity|]). split; [|split].
      * intros c N _. rewrite H. destruct (Z.eqb_spec c a); [contradiction|reflexivity].
      * intros c d D. destruct (cont_bw s s1 a b l A Z2 H c d D) as (d0 & D0 & _ & T0 & _ & K1 & K2). exists d0. split; [exact D0|]. split; [exact T0|].
        split; [intros N; now rewrite (K1 N)|intros E; now destruct (K2 E) as [-> ->]].
      * intros c d D. destruct (cont_fw s s1 a b l A Z2 H c d D) as (d0 & D0 & _ & T0 & _ & K1 & K2). exists d0. split; [exact D0|]. split; [exact T0|].
        split; [intros N; now rewrite (K1 N)|intros E; now destruct (K2 E) as [-> ->]].
  - (* an old block *)
    assert (exists s2, (match phase (gc s1) with Phase_mark => darken grow_ok x s1 | _ => Ret s1 end) = Ret s2 /\ greyer s1 s2 /\ core s2 /\
        (forall c, (c = x -> phase (gc s) = Phase_mark -> False) -> hget (hp s2) c = hget (hp s1) c)) as (s2 & E2 & GR & C2 & O2).
    { change (gc s1) with (gc s). destruct (phase (gc s)) eqn:PM.
      - pose proof (c_mark _ _ _ _ C PM) as M.
        assert (some_block s1 x) as GX1.
        { destruct GX as [Q|[Q|(e & E)]]; [now left|right; now left|]. right. right. destruct (cont_fw s s1 a b l A Z2 H _ _ E) as (e' & E' & _). eauto. }
        destruct (darken_ok young_start young_end grow_ok outside x s1) as (s2 & E2 & GR & S2 & P2 & W2 & O2).
        + apply W1.
        + apply (cont_stack s s1 a b l); auto. apply (mk_stack _ _ _ M).
        + apply (cont_pure s s1 a b l); auto. apply (mk_pure _ _ _ M).
        + apply (some_darkenable young_start young_end outside s1 x W1 GX1).
        + exists s2. split; [exact E2|]. split; [exact GR|]. split; [|intros c N; apply O2; intros ->; apply N; auto].
          constructor.
          * eapply greyer_wf; eauto.
          * eapply greyer_closed; eauto.
          * intros _. apply (cont_marking s s1 a b l A Z2 H) with (x := x); auto.
            -- right. intros d YX D. apply (W2 d); auto.
               pose proof (greyer_wf _ _ _ _ _ GR W1) as W2'. destruct (alloc_even _ _ _ ZO _ _ _ W2' D) as [EX _]. unfold is_block. rewrite EX. cbn [andb].
               rewrite <- (greyer_in_heap _ _ _ _ _ GR). eapply layout_in_heap; eauto. apply W2'.
            -- intros _ y YI. eapply zset_In_old; eauto.
            -- intros _ y YI. destruct (zset_In _ _ _ _ _ Z1 YI) as [->|Q]; [right|now left].
               apply (known_prot _ _ outside ZO s v M W KV).
          * rewrite (g_phase _ _ _ _ GR). change (gc s1) with (gc s). congruence.
      - exists s1. split; [reflexivity|]. split; [apply greyer_refl|]. split; [|auto]. constructor; auto.
        + change (gc s1) with (gc s). congruence.
        + intros Q. apply (cont_rest s s1 a b l); auto. now apply (c_rest _ _ _ _ C).
      - exists s1. split; [reflexivity|]. split; [apply greyer_refl|]. split; [|auto]. constructor; auto.
        + change (gc s1) with (gc s). congruence.
        + intros Q. apply (cont_rest s s1 a b l); auto. now apply (c_rest _ _ _ _ C). }
    rewrite E2. cbn [bind]. change (is_block v && is_young v) with (yb v). change (is_block x && is_young x) with (yb x).
    assert (tab s2 = tab s) as T2 by (rewrite (g_tab _ _ _ _ GR); reflexivity).
    assert (rtcap (tab s2)) as CAP by (rewrite T2; apply R).
    assert (forall c d, hget (hp s2) c = Some d -> exists d0, hget (hp s) c = Some d0 /\ tag d = tag d0 /\ (c <> a -> fs d = fs d0) /\ (c = a -> d0 = b /\ fs d = l)) as BW.
    { intros c d D. destruct (g_bw _ _ _ _ _ _ GR D) as (d1 & D1 & T1 & F1 & _). destruct (cont_bw s s1 a b l A Z2 H c d1 D1) as (d0 & D0 & _ & T0 & _ & K1 & K2).
      exists d0. split; [exact D0|]. split; [congruence|]. split; [intros N; rewrite F1; now rewrite (K1 N)|intros E; rewrite F1; now destruct (K2 E) as [-> ->]]. }
    assert (forall c d0, hget (hp s) c = Some d0 -> exists d, hget (hp s2) c = Some d /\ tag d = tag d0 /\ (c <> a -> fs d = fs d0) /\ (c = a -> d0 = b /\ fs d = l)) as FW.
    { intros c d D. destruct (cont_fw s s1 a b l A Z2 H c d D) as (d1 & D1 & _ & T0 & _ & K1 & K2). destruct (g_fw _ _ _ _ GR _ _ D1) as (d2 & D2 & T2' & F2 & _).
      exists d2. split; [exact D2|]. split; [congruence|]. split; [intros N; rewrite F2; now rewrite (K1 N)|intros E; rewrite F2; now destruct (K2 E) as [-> ->]]. }
    assert (forall t, rtcap t -> (forall e, In e (rt (tab s)) -> In e (rt t)) -> (forall e, In e (rt t) -> In e (rt (tab s)) \/ (e = (a, i) /\ yb v = true)) ->
       (yb v = true -> In (a, i) (rt t)) -> inv (set_tab s2 t)) as FIN.
    { intros t CT K1 K2 K3. constructor; [now apply core_tab|]. destruct R. constructor; cbn [tab set_tab hp young_ptr]; auto.
      - intros c j J. destruct (K2 _ J) as [Q|[Q _]].
        + destruct (r_in c j Q) as (YC & d & y & D & TD & QQ). split; [exact YC|]. destruct (FW c d D) as (d2 & D2 & T2' & F1 & F2).
          pose proof (zget_range _ _ _ QQ). assert (zlen (fs d2) = zlen (fs d)) as LE.
          { destruct (Z.eq_dec c a) as [E|E]; [destruct (F2 E) as [-> ->]; exact Z2|now rewrite (F1 E)]. }
          destruct (zget_some (fs d2) j ltac:(lia)) as (y' & Y'). exists d2, y'. split; [exact D2|]. split; [lia|exact Y'].
        + injection Q as -> ->. split; [exact Y|]. destruct (FW a b A) as (d2 & D2 & T2' & _ & F2). destruct (F2 eq_refl) as [_ F3].
          exists d2, v. split; [exact D2|]. split; [lia|]. rewrite F3, Z3, Z.eqb_refl. reflexivity.
      - intros c d j y YC D TD Q YY. destruct (BW c d D) as (d0 & D0 & T0 & F1 & F2).
        assert (yb v = true -> exists e, hget (hp s2) v = Some e) as VV.
        { intros YV. destruct (some_yb _ _ _ ZO s v (good_some _ _ _ _ _ GV) YV) as (e & E). destruct (FW _ _ E) as (e2 & E2' & _). eauto. }
        destruct (Z.eq_dec c a) as [E|E].
        + destruct (F2 E) as [-> F3]. subst c. rewrite F3, Z3 in Q. destruct (Z.eqb_spec j i) as [->|N].
          * injection Q as <-. auto.
          * destruct (r_all a b j y YC A ltac:(lia) Q YY) as (IN & e & EE). split; [auto|]. destruct (FW _ _ EE) as (e2 & E2' & _). eauto.
        + rewrite (F1 E) in Q. destruct (r_all c d0 j y YC D0 ltac:(lia) Q YY) as (IN & e & EE). split; [auto|]. destruct (FW _ _ EE) as (e2 & E2' & _). eauto.
      - rewrite (g_ptr _ _ _ _ GR). change (young_ptr s1) with (young_ptr s). intros PS. destruct (rt t) as [|e q] eqn:RT; [reflexivity|]. exfalso.
        destruct (K2 e) as [Q|[_ Q]]; [now left| |].
        + rewrite (r_empty PS) in Q. destruct Q.
        + destruct (some_yb _ _ _ ZO s v (good_some _ _ _ _ _ GV) Q) as (e' & E'). apply (yb_ptr _ _ grow_ok outside s v e' W Q E' PS). }
    assert (exists t, (if yb v && negb (yb x) then push_ref a i s2 else Ret s2) = Ret (set_tab s2 t) /\ inv (set_tab s2 t)) as (t & E3 & I3).
    { destruct (yb v) eqn:YV; [destruct (yb x) eqn:YX|]; cbn [andb negb].
      - exists (tab s2). split; [destruct s2; reflexivity|]. apply FIN; rewrite ?T2; auto; [apply R|]. intros _. destruct R.
        now destruct (r_all a b i x Y A T X YX).
      - destruct (push_ref_ok grow_ok a i s2 CAP) as (t & P1 & P2 & P3). exists t. split; [exact P1|]. rewrite T2 in P3. apply FIN; auto; rewrite P3.
        + intros e Q. apply in_or_app. now left.
        + intros e Q. apply in_app_or in Q as [Q|[Q|[]]]; auto.
        + intros _. apply in_or_app. right. now left.
      - exists (tab s2). split; [destruct s2; reflexivity|]. apply FIN; rewrite ?T2; auto; [apply R|]. discriminate. }
    exists (set_tab s2 t), l. split; [exact E3|]. split; [exact I3|]. split; [reflexivity|]. cbn [roots set_tab globals gc hp].
    rewrite (g_roots _ _ _ _ GR), (g_globals _ _ _ _ GR), (g_phase _ _ _ _ GR), (g_sweep _ _ _ _ GR), (g_weak _ _ _ _ GR). do 5 (split; [reflexivity|]). split; [|split].
    + intros c N K. rewrite O2, H.
      * destruct (Z.eqb_spec c a); [contradiction|reflexivity].
      * intros -> PM. apply K; auto.
    + intros c d D. destruct (BW c d D) as (d0 & Q1 & Q2 & Q3 & Q4). exists d0. repeat split; auto. intros E. now apply Q4.
    + intros c d D. destruct (FW c d D) as (d0 & Q1 & Q2 & Q3 & Q4). exists d0. repeat split; auto. intros E. now apply Q4.
Qed.

(** ** Writing data *)
Lemma write_ok s a b l : inv s -> hget (hp s) a = Some b -> Weak_tag < tag b -> zlen l = zlen (fs b) ->
  inv (set_hp s (hput (hp s) a (set_fs b l))).
Proof.
  intros [C R] A T LL. pose proof (c_wf _ _ _ _ C) as W. pose proof (c_closed _ _ _ _ C) as CL. set (s1 := set_hp s _).
  assert (forall c, hget (hp s1) c = if c =? a then Some (set_fs b l) else hget (hp s) c) as H by (intros c; unfold s1; cbn [hp set_hp]; apply hget_hput).
  constructor.
  - constructor.
    + apply (cont_wf s s1 a b l); auto.
    + apply (cont_closed s s1 a b l); auto. lia.
    + intros PM. pose proof (c_mark _ _ _ _ C PM) as M.
      assert (forall v, prot s v -> prot s1 v) as PP.
      { intros v. apply prot_mono.
        - intros c d Y D TD _. rewrite H. destruct (Z.eqb_spec c a) as [->|N]; [|exact D]. assert (d = b) as -> by congruence. unfold Weak_tag, No_scan_tag in *. lia.
        - intros d Y D K. destruct (cont_bw s s1 a b l A LL H v d D) as (d0 & D0 & C0 & _). exists d0. split; congruence. }
      assert (forall c d, hget (hp s1) c = Some d -> tag d <= Weak_tag -> hget (hp s) c = Some d) as BW.
      { intros c d D TD. rewrite H in D. destruct (Z.eqb_spec c a) as [->|N]; [|exact D]. injection D as <-. cbn in TD. lia. }
      destruct M. constructor; auto.
      * apply (cont_stack s s1 a b l); auto.
      * apply (cont_pure s s1 a b l); auto.
      * apply (cont_weak_list s s1 a b l); auto.
      * intros c d v Y D TD I. apply PP. apply (mk_young c d v); auto. apply BW; auto. unfold Weak_tag, No_scan_tag in *. lia.
      * intros c d v Y D CD TD I. apply PP. apply (mk_black c d v); auto. apply BW; auto. unfold Weak_tag, No_scan_tag in *. lia.
      * intros c d v Y D CD TD NI I. apply PP. apply (mk_bweak c d v); auto. apply BW; auto. lia.
    + intros PM. apply (cont_rest s s1 a b l); auto. now apply (c_rest _ _ _ _ C).
  - destruct R. constructor; auto.
    + intros c j J. destruct (r_in c j J) as (YC & d & y & D & TD & Q). split; [exact YC|]. exists d, y. rewrite H. destruct (Z.eqb_spec c a) as [->|N]; [|auto].
      assert (d = b) as -> by congruence. lia.
    + intros c d j y YC D TD Q YY. rewrite H in D. destruct (Z.eqb_spec c a) as [->|N]; [injection D as <-; cbn in TD; lia|].
      destruct (r_all c d j y YC D TD Q YY) as (IN & e & E). split; [exact IN|]. rewrite H. destruct (y =? a); eauto.
Qed.

(** ** Weak pointers *)
Lemma weak_value s a b v : inv s -> reach s a -> hget (hp s) a = Some b -> tag b = Weak_tag -> In v (fs b) -> some_block s v /\
  (good s v \/ (phase (gc s) = Phase_weak /\ In a (weak (gc s)))).
Proof.
  intros [C R] RA A T I. pose proof (c_wf _ _ _ _ C) as W. pose proof (c_closed _ _ _ _ C) as CL.
  pose proof (good_sv _ _ _ ZO s a b W (reach_good _ _ _ ZO s a W CL RA) A) as SA.
  destruct (cl_weak _ _ _ _ CL a b v SA A T I) as [Q|(Q1 & Q2 & Q3)]; [|auto]. split; [|now left]. now apply (good_some young_start young_end).
Qed.

Lemma core_root s v : core s -> good s v -> (phase (gc s) = Phase_mark -> prot s v) -> core (set_roots s (v :: roots s)).
Proof.
  intros C G P. apply core_roots; auto.
  - intros x [<-|I]; [exact G|]. now apply (cl_roots _ _ _ _ (c_closed _ _ _ _ C)).
  - intros PM x [<-|I]; [auto|]. now apply (mk_roots _ _ _ (c_mark _ _ _ _ C PM)).
Qed.
Lemma rtok_roots s rs : rtok s -> rtok (set_roots s rs).
Proof. intros []. constructor; auto. Qed.

Lemma weak_sub_ok s a b i : inv s -> reach s a -> hget (hp s) a = Some b -> tag b = Weak_tag -> 0 <= i < zlen (fs b) ->
  weak_sub grow_ok a i s = Raise FailExn \/
  exists v s', weak_sub grow_ok a i s = Ret (v, s') /\ inv (set_roots s' (v :: roots s')) /\ zget (fs b) i = Some v /\ good s v /\ v <> 0 /\
    greyer s s' /\ (forall c, c <> v -> hget (hp s') c = hget (hp s) c).
Proof.
  intros IV RA A T I. pose proof IV as [C R]. pose proof (c_wf _ _ _ _ C) as W. pose proof (c_closed _ _ _ _ C) as CL.
  destruct (zget_some (fs b) i I) as (v & V). pose proof (zget_In _ _ _ V) as VI.
  destruct (weak_value s a b v IV RA A T VI) as [SB WV].
  unfold weak_sub, rd. cbn [read]. rewrite A, V. cbn [bind].
  assert (exists d, isdead v s = Ret d /\ (d = false -> good s v /\ v <> 0)) as (d & ED & GD).
  { unfold isdead. destruct (Z.eqb_spec v 0) as [E|E]; [eexists; split; [reflexivity|discriminate]|].
    destruct (phase (gc s)) eqn:PH; try (eexists; split; [reflexivity|]; intros _; split; [|exact E]; destruct WV as [Q|(Q & _)]; [exact Q|congruence]).
    destruct (is_block v && is_in_heap s v) eqn:BH.
    - destruct (some_darkenable _ _ _ s v W SB BH) as (bv & BV). rewrite BV. eexists. split; [reflexivity|]. intros Q. split; [|exact E].
      destruct (color_eqb_spec (col bv) White) as [K|K]; [discriminate|]. right. right. exists bv. split; [exact BV|]. right. right. left.
      apply andb_prop in BH as [_ BH].
      assert (is_young v = false) as YV by (destruct (is_young v) eqn:YV; [|reflexivity]; rewrite (layout_young_out _ _ _ _ _ (w_lay _ _ _ _ W) YV) in BH; discriminate).
      pose proof (rs_nogray _ _ _ (c_rest _ _ _ _ C ltac:(congruence)) v bv YV BV). pose proof (w_blue _ _ _ _ W v bv BV YV). destruct (col bv); congruence.
    - eexists. split; [reflexivity|]. intros _. split; [|exact E]. destruct SB as [Q|[Q|(bv & BV)]]; [now left|right; now left|].
      right. right. exists bv. split; [exact BV|]. left. destruct (is_young v) eqn:YV; [reflexivity|].
      destruct (alloc_even _ _ _ ZO _ _ _ W BV) as [EV _]. unfold is_block in BH. rewrite EV, (layout_in_heap _ _ _ _ _ _ (w_lay _ _ _ _ W) BV YV) in BH. discriminate. }
  rewrite ED. cbn [bind]. destruct d; [now left|]. destruct (GD eq_refl) as [GV NZ]. right.
  destruct (phase (gc s)) eqn:PM.
  - pose proof (c_mark _ _ _ _ C PM) as M.
    destruct (darken_ok young_start young_end grow_ok outside v s) as (s2 & E2 & GR & S2 & P2 & W2 & O2).
    + apply W.
    + apply M.
    + apply M.
    + apply (some_darkenable _ _ _ s v W SB).
    + rewrite E2. cbn [bind]. exists v, s2. split; [reflexivity|]. split; [|split; [reflexivity|]; split; [exact GV|]; split; [exact NZ|]; split; [exact GR|]; exact O2].
      constructor; [|apply rtok_roots; eapply greyer_rtok; eauto].
      apply core_root.
      * eapply core_greyer; eauto.
      * now apply (greyer_good _ _ _ _ _ _ GR).
      * intros _ YV bv BV K. exfalso. apply (W2 bv); auto.
        pose proof (greyer_wf _ _ _ _ _ GR W) as W2'. destruct (alloc_even _ _ _ ZO _ _ _ W2' BV) as [EX _]. unfold is_block. rewrite EX. cbn [andb].
        rewrite <- (greyer_in_heap _ _ _ _ _ GR). eapply layout_in_heap; eauto. apply W2'.
  - exists v, s. split; [reflexivity|]. split; [|split; [reflexivity|]; split; [exact GV|]; split; [exact NZ|]; split; [apply greyer_refl|reflexivity]].
    constructor; [|now apply rtok_roots]. apply core_root; auto. congruence.
  - exists v, s. split; [reflexivity|]. split; [|split; [reflexivity|]; split; [exact GV|]; split; [exact NZ|]; split; [apply greyer_refl|reflexivity]].
    constructor; [|now apply rtok_roots]. apply core_root; auto. congruence.
Qed.

(** ** Loads, globals, small blocks *)
Lemma roots_step s rs : inv s -> Forall (known s) rs -> inv (set_roots s rs).
Proof.
  intros [C R] F. rewrite Forall_forall in F. constructor; [|now apply rtok_roots]. apply core_roots; auto.
  - intros v I. apply known_good; auto; [apply C|apply C].
  - intros PM v I. apply (known_prot _ _ outside); auto; [apply C; auto|apply C].
Qed.
Lemma globals_step s v b : inv s -> reach s v -> hget (hp s) v = Some b -> is_young v = false -> inv (set_globals s v).
Proof.
  intros [[W CL M R] RT] RV B Y. pose proof (reach_good _ _ _ ZO s v W CL RV) as GV.
  assert (forall x, prot s x -> prot (set_globals s v) x) as PP by (intros x; apply prot_mono; cbn; eauto).
  constructor.
  - constructor.
    + destruct W. constructor; auto. eapply layout_same; eauto.
    + destruct CL. constructor; auto.
    + intros PM. pose proof (reach_prot _ _ outside s v (M PM) W RV) as PV. destruct (M PM). constructor; eauto. destruct mk_stack. constructor; auto.
    + intros PM. destruct (R PM). constructor; auto.
  - destruct RT. constructor; auto.
Qed.
Lemma small_step s t l v s' : inv s -> 0 < zlen l -> t <> Weak_tag -> (t < No_scan_tag -> Forall (known s) l) ->
  alloc_small young_end t l s = Some (v, s') -> inv (set_roots s' (v :: roots s')) /\ hget (hp s) v = None /\ is_young v = true /\
  hget (hp s') v = Some (Blk Black t l) /\ (forall a, a <> v -> hget (hp s') a = hget (hp s) a) /\ roots s' = roots s /\ globals s' = globals s /\ gc s' = gc s.
Proof.
  intros [C R] L TW KN. unfold alloc_small. destruct (_ >? _) eqn:E; [discriminate|]. intros Q. injection Q as <- <-.
  assert (forall a, hget (hput (hp s) (young_ptr s + 8) (Blk Black t l)) a = if a =? young_ptr s + 8 then Some (Blk Black t l) else hget (hp s) a) as H.
  { intros a. apply hget_hput. }
  destruct (core_small young_start young_end grow_ok outside ZO s (set_roots (set_young_ptr (set_hp s (hput (hp s) (young_ptr s + 8) (Blk Black t l))) (young_ptr s + 8 * (zlen l + 1))) (young_ptr s + 8 :: roots s))
     (young_ptr s + 8) t l C) as (C' & N & Y); auto; try lia.
  split; [|split; [exact N|]; split; [exact Y|]; cbn; rewrite H, Z.eqb_refl; split; [reflexivity|]; split; [|auto]; intros a NA; rewrite H; destruct (Z.eqb_spec a (young_ptr s + 8)); [contradiction|reflexivity]].
  constructor; [exact C'|]. destruct R. constructor; cbn [tab set_roots set_young_ptr set_hp hp young_ptr]; auto.
  - intros c j J. destruct (r_in c j J) as (YC & d & y & D & TD & Q). split; [exact YC|]. exists d, y. rewrite H. destruct (Z.eqb_spec c (young_ptr s + 8)); [congruence|auto].
  - intros c d j y YC D TD Q YY. rewrite H in D. destruct (Z.eqb_spec c (young_ptr s + 8)); [congruence|].
    destruct (r_all c d j y YC D TD Q YY) as (IN & e & EE). split; [exact IN|]. rewrite H. destruct (y =? _); eauto.
  - intros Q. destruct (w_ptr _ _ _ _ (c_wf _ _ _ _ C)). exfalso. assert (young_ptr s + 8 * (zlen l + 1) = young_start) as Q1 by exact Q. clear Q. lia.
Qed.
End Store.
