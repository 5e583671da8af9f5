(** The weak phase and the sweep keep the invariant. *)
From Coq Require Import Sorting.Sorted.
From Verif Require Import Base ArrayLib Gc_Model Gc_Spec Gc_Heap Gc_Dark Gc_Inv Gc_Major.

Section Sweep.
Variables young_start young_end : Z.
Variable grow_ok : st -> bool.
Variable free_size : st -> Z -> Z.
Variable outside : Z -> Prop.
Notation is_young := (is_young young_start young_end).
Notation layout := (layout young_start young_end outside).
Notation stack_ok := (stack_ok young_start young_end).
Notation pure_ok := (pure_ok young_start young_end).
Notation greyer := (greyer young_start young_end).
Notation known := (known outside).
Notation sv := (sv young_start young_end).
Notation good := (good young_start young_end outside).
Notation some_block := (some_block outside).
Notation wf := (wf young_start young_end outside).
Notation yb := (yb young_start young_end).
Notation rtok := (rtok young_start young_end).
Notation closed := (closed young_start young_end outside).
Notation prot := (prot young_start young_end).
Notation weak_list := (weak_list young_start young_end).
Notation marking := (marking young_start young_end).
Notation resting := (resting young_start young_end).
Notation core := (core young_start young_end outside).
Notation inv := (inv young_start young_end outside).
Notation recol := (recol young_start young_end).
Notation started := (started young_start).
Hypothesis ZO : zone young_start young_end outside.
Hypothesis FB : free_blocks young_start young_end free_size outside.

(** ** The weak phase *)
Definition clr (s : st) (v : Z) : Z :=
  if is_block v && is_in_heap s v then match hget (hp s) v with Some b => if color_eqb (col b) White then 0 else v | None => v end else v.

Lemma weak_fields_ok s : forall l len, Forall (darkenable s) l -> zlen l <= len -> weak_fields s len l = Ret (map (clr s) l).
Proof.
  induction l as [|v l IH]; intros len F L; cbn [weak_fields map]; [reflexivity|]. rewrite zlen_cons in L. pose proof (zlen_nonneg l).
  destruct (Z.ltb_spec 0 len) as [_|Q]; [|lia]. inversion F as [|x q FV FL]; subst. rewrite (IH (len - 1) FL) by lia. 
  assert ((if is_block v && is_in_heap s v then match hget (hp s) v with None => UB | Some b => Ret (if color_eqb (col b) White then 0 else v) end else Ret v) = Ret (clr s v)) as E.
  { unfold clr. destruct (is_block v && is_in_heap s v) eqn:B; [|reflexivity]. destruct (FV B) as (b & V). rewrite V. reflexivity. }
  rewrite E. reflexivity.
Qed.
Lemma int_of_id n : 0 <= n < 2147483648 -> int_of n = n.
Proof. intros H. unfold int_of. rewrite Z.mod_small by lia. lia. Qed.

(** same colours at the same addresses *)
Definition shp (s s' : st) : Prop := chunks s' = chunks s /\ forall a, option_map col (hget (hp s') a) = option_map col (hget (hp s) a).
Lemma shp_clr s s' v : shp s s' -> clr s' v = clr s v.
Proof.
  intros [C H]. unfold clr, is_in_heap. rewrite C. specialize (H v). destruct (_ && _); [|reflexivity].
  destruct (hget (hp s') v), (hget (hp s) v); cbn in H; try discriminate; [|reflexivity]. injection H as ->. reflexivity.
Qed.
Lemma shp_dark s s' v : shp s s' -> darkenable s v -> darkenable s' v.
Proof.
  intros [C H] D I. unfold is_in_heap in I. rewrite C in I. destruct (D I) as (b & B). specialize (H v). rewrite B in H.
  destruct (hget (hp s') v) as [b'|]; [eauto|discriminate].
Qed.
Lemma clr_dark s v : is_in_heap s 0 = false -> darkenable s v -> darkenable s (clr s v).
Proof.
  intros Z0 D. unfold clr. destruct (is_block v && is_in_heap s v); [|exact D]. destruct (hget (hp s) v) as [b|]; [|exact D]. destruct (color_eqb _ _); [|exact D].
  intros I. rewrite Z0, andb_false_r in I. discriminate.
Qed.
Lemma clr_idem s v : is_in_heap s 0 = false -> clr s (clr s v) = clr s v.
Proof.
  intros Z0. unfold clr at 2 3. destruct (is_block v && is_in_heap s v) eqn:B.
  - destruct (hget (hp s) v) as [b|] eqn:V; [destruct (color_eqb (col b) White) eqn:C|].
    + unfold clr. rewrite Z0, andb_false_r. reflexivity.
    + unfold clr. rewrite B, V, C. reflexivity.
    + unfold clr. now rewrite B, V.
  - unfold clr. now rewrite B.
Qed.

Lemma weak_arrays_ok : forall W s, is_in_heap s 0 = false ->
  (forall a, In a W -> exists b, hget (hp s) a = Some b /\ Forall (darkenable s) (fs b) /\ zlen (fs b) < 2147483648) ->
  exists h, weak_arrays W s = Ret (set_hp s h) /\
    forall a, hget h a = if in_dec Z.eq_dec a W then option_map (fun b => set_fs b (map (clr s) (fs b))) (hget (hp s) a) else hget (hp s) a.
Proof.
  induction W as [|w W IH]; intros s Z0 A.
  - exists (hp s). split; [destruct s; reflexivity|]. intros a. reflexivity.
  - destruct (A w (or_introl eq_refl)) as (b & B & F & L). cbn [weak_arrays]. rewrite B.
    pose proof (zlen_nonneg (fs b)) as LP. rewrite int_of_id by lia. rewrite (weak_fields_ok s (fs b) (zlen (fs b)) F ltac:(lia)). cbn [bind].
    set (s1 := set_hp s _).
    assert (forall a, hget (hp s1) a = if a =? w then Some (set_fs b (map (clr s) (fs b))) else hget (hp s) a) as H1 by (intros a; unfold s1; cbn [hp set_hp]; apply hget_hput).
    assert (shp s s1) as SH.
    { split; [reflexivity|]. intros a. rewrite H1. destruct (Z.eqb_spec a w) as [->|N]; [now rewrite B|reflexivity]. }
    destruct (IH s1) as (h & E & H).
    + exact Z0.
    + intros a I. rewrite H1. destruct (Z.eqb_spec a w) as [->|N].
      * eexists. split; [reflexivity|]. cbn [fs set_fs]. split; [|unfold zlen in *; rewrite map_length; exact L].
        apply Forall_forall. intros x X. apply in_map_iff in X as (y & <- & Y). rewrite Forall_forall in F. apply (shp_dark s); auto. apply clr_dark; auto.
      * destruct (A a (or_intror I)) as (c & C & FC & LC). exists c. split; [exact C|]. split; [|exact LC]. eapply Forall_impl; [|exact FC].
        intros x. now apply shp_dark.
    + exists h. split; [exact E|]. intros a. rewrite H, H1.
      assert (forall l, map (clr s1) l = map (clr s) l) as MC by (intros l; apply map_ext; intros x; now apply shp_clr).
      destruct (in_dec Z.eq_dec a W) as [I|I]; destruct (in_dec Z.eq_dec a (w :: W)) as [J|J]; try (exfalso; apply J; now right).
      * destruct (Z.eqb_spec a w) as [->|N].
        -- rewrite B. cbn [option_map]. rewrite MC. unfold set_fs. cbn [fs col tag]. rewrite map_map. f_equal. f_equal. apply map_ext. intros x. now apply clr_idem.
        -- destruct (hget (hp s) a); cbn [option_map]; [now rewrite MC|reflexivity].
      * destruct (Z.eqb_spec a w) as [->|N].
        -- now rewrite B.
        -- destruct J; [congruence|contradiction].
      * destruct (Z.eqb_spec a w) as [->|N]; [exfalso; apply J; now left|reflexivity].
Qed.

Lemma weak_ok s : inv s -> started s -> phase (gc s) = Phase_weak ->
  exists h, weak_phase s = Ret (set_gc (set_hp s h) (set_phase (set_weak (gc s) []) Phase_sweep)) /\
    inv (set_gc (set_hp s h) (set_phase (set_weak (gc s) []) Phase_sweep)) /\
    (forall a, hget h a = if in_dec Z.eq_dec a (weak (gc s)) then option_map (fun b => set_fs b (map (clr s) (fs b))) (hget (hp s) a) else hget (hp s) a) /\
    (forall a, In a (weak (gc s)) -> exists b, hget (hp s) a = Some b /\ tag b = Weak_tag /\ is_young a = false /\ col b = Black).
Proof.
  intros [[W CL _ RS] RT] ST PW. specialize (RS ltac:(congruence)). pose proof (w_lay _ _ _ _ W) as L.
  assert (is_in_heap s 0 = false) as Z0 by (apply (layout_outside _ _ _ _ _ L); apply ZO).
  pose proof (rs_weak _ _ _ RS) as WL.
  assert (forall a b x, In a (weak (gc s)) -> hget (hp s) a = Some b -> In x (fs b) -> some_block s x) as SB.
  { intros a b x I A X. destruct (WL a I) as (Y & b2 & B & T & C). assert (b2 = b) as -> by congruence.
    destruct (cl_weak _ _ _ _ CL a b x) as [Q|(_ & _ & Q)]; auto; [exists b; auto|]. now apply (good_some young_start young_end). }
  destruct (weak_arrays_ok (weak (gc s)) s Z0) as (h & E & H).
  { intros a I. destruct (WL a I) as (Y & b & B & T & C). exists b. split; [exact B|]. split; [|now apply (w_wlen _ _ _ _ W a)].
    apply Forall_forall. intros x X. apply (some_darkenable young_start young_end outside s x W). eauto. }
  exists h. unfold weak_phase. rewrite E. cbn [bind]. split; [reflexivity|]. set (s' := set_gc _ _).

  assert (forall a, (~ In a (weak (gc s)) /\ hget h a = hget (hp s) a) \/
    (In a (weak (gc s)) /\ exists b, hget (hp s) a = Some b /\ hget h a = Some (set_fs b (map (clr s) (fs b))) /\ tag b = Weak_tag /\ is_young a = false /\ col b = Black)) as K.
  { intros a. rewrite H. destruct (in_dec Z.eq_dec a (weak (gc s))) as [I|I]; [|now left].
    right. split; [exact I|]. destruct (WL a I) as (Y & b & B & T & C). exists b. rewrite B. auto. }
  assert (forall a b, hget (hp s) a = Some b -> exists b', hget h a = Some b' /\ col b' = col b /\ tag b' = tag b /\ zlen (fs b') = zlen (fs b)) as FW.
  { intros a b A. destruct (K a) as [(_ & C1)|(_ & c & C1 & C2 & _)].
    - exists b. rewrite C1. auto.
    - assert (c = b) as -> by congruence. eexists. split; [exact C2|]. cbn. repeat split. unfold zlen. now rewrite map_length. }
  assert (forall a b', hget h a = Some b' -> exists b, hget (hp s) a = Some b /\ col b' = col b /\ tag b' = tag b /\ zlen (fs b') = zlen (fs b) /\
     ((~ In a (weak (gc s)) /\ b' = b) \/ (In a (weak (gc s)) /\ tag b = Weak_tag /\ fs b' = map (clr s) (fs b)))) as BW.
  { intros a b' A. destruct (K a) as [(I & C1)|(I & c & C1 & C2 & C3 & C4 & C5)].
    - exists b'. rewrite <- C1. split; [exact A|]. repeat (split; [reflexivity|]). left. auto.
    - exists c. rewrite C2 in A. injection A as <-. cbn. repeat split; auto. unfold zlen. now rewrite map_length. }
  assert (forall x, some_block s x -> good s (clr s x)) as CG.
  { intros x SX. unfold clr. destruct (is_block x && is_in_heap s x) eqn:B.
    - destruct (some_darkenable _ _ _ s x W SX B) as (b & X). rewrite X. destruct (color_eqb_spec (col b) White) as [C|C].
      + right. left. apply ZO.
      + right. right. exists b. split; [exact X|]. apply andb_prop in B as [_ B].
        destruct (is_young x) eqn:Y; [now left|]. right. right. left.
        pose proof (rs_nogray _ _ _ RS x b Y X). pose proof (w_blue _ _ _ _ W x b X Y). destruct (col b); congruence.
    - destruct SX as [Q|[Q|(b & X)]]; [now left|right; now left|]. right. right. exists b. split; [exact X|]. left.
      destruct (is_young x) eqn:Y; [reflexivity|]. rewrite (old_heap _ _ _ ZO s x b W X Y) in B. discriminate. }
  assert (forall a, sv s' a <-> sv s a) as SV.
  { intros a. unfold Gc_Inv.sv. cbn [s' gc set_gc phase set_phase sweep_hp set_weak hp set_hp]. rewrite PW. split; intros (b & B & Q).
    - destruct (BW a b B) as (b' & B' & C & _). exists b'. split; [exact B'|]. rewrite <- C. destruct Q as [Q|[Q|Q]]; auto; discriminate.
    - destruct (FW a b B) as (b' & B' & C & _). exists b'. split; [exact B'|]. rewrite C. destruct Q as [Q|[Q|Q]]; auto; discriminate. }
  assert (forall v, good s' v <-> good s v) as G by (intros v; unfold Gc_Inv.good; now rewrite SV).
  assert (wf s') as W'.
  { destruct W. constructor; auto.
    - eapply layout_same; [exact w_lay|reflexivity|]. intros a b' Y A. destruct (BW a b' A) as (b & B & _ & _ & Q & _). eauto.
    - intros a b' A Y. destruct (BW a b' A) as (b & B & C & T & Q & _). rewrite C, T, Q. eauto.
    - intros a b' A Y. destruct (BW a b' A) as (b & B & C & _). rewrite C. eauto.
    - intros a b' A T0. destruct (BW a b' A) as (b & B & C & T & Q & _). rewrite Q. apply (w_wlen a b B). congruence. }
  split; [|split; [exact H|]].
  2:{ intros a I. destruct (WL a I) as (Y & b & B & T & C). exists b. auto. }
  constructor; [constructor|].
  - exact W'.
  - destruct CL. constructor.
    + intros v I. rewrite G. auto.
    + rewrite G. auto.
    + intros a b' v S A T I. rewrite SV in S. rewrite G. destruct (BW a b' A) as (b & B & C & T' & Q & [(_ & ->)|(_ & Q2 & _)]).
      * eapply cl_fields; eauto.
      * unfold Weak_tag, No_scan_tag in *. lia.
    + intros a b' v S A T I. rewrite SV in S. rewrite G. left. destruct (BW a b' A) as (b & B & C & T' & Q & [(NI & ->)|(Q1 & Q2 & Q3)]).
      * destruct (cl_weak a b v) as [Q'|(_ & Q1 & _)]; auto. contradiction.
      * rewrite Q3 in I. apply in_map_iff in I as (x & <- & X). apply CG. eauto.
  - cbn. discriminate.
  - intros _. destruct RS. constructor; cbn [s' gc set_gc set_phase set_weak gray gray_size pure markhp chunk limit sweep_hp chunks set_hp weak]; auto.
    + intros a b' Y A. destruct (BW a b' A) as (b & B & C & _). rewrite C. eauto.
    + intros a b' Y A. destruct (BW a b' A) as (b & B & C & _). rewrite C. eauto.
    + intros a [].
  - pose proof RT as [R1 R2 R3 R4]. specialize (R4 ST). constructor; auto.
    + cbn [tab s' set_gc set_hp]. rewrite R4. intros a i [].
    + intros a b' i x Y A T X YX. exfalso. destruct (BW a b' A) as (b & B & C & T' & Q & CASE).
      assert (In x (fs b)) as IX.
      { apply zget_In in X. destruct CASE as [(_ & ->)|(_ & _ & Q3)]; [exact X|]. rewrite Q3 in X. apply in_map_iff in X as (y & EY & IY).
        assert (clr s y = y \/ clr s y = 0) as [Q'|Q'].
        { unfold clr. destruct (_ && _); [|auto]. destruct (hget (hp s) y) as [d|]; [destruct (color_eqb (col d) White)|]; auto. }
        - congruence.
        - exfalso. assert (x = 0) as -> by congruence. unfold Gc_Inv.yb in YX. apply andb_prop in YX as [_ YX]. destruct ZO as (_ & _ & Z1 & Z2). rewrite (Z2 _ Z1) in YX. discriminate. }
      apply In_zget in IX as (j & J). destruct (R2 a b j x Y B ltac:(lia) J YX) as (I & _). rewrite R4 in I. destruct I.
Qed.

(** ** Sweeping *)

(** the sweep moves on: blocks with addresses before the new place are white, and no survivor is lost *)
Lemma sweep_core s s' : core s -> started s -> phase (gc s) = Phase_sweep -> phase (gc s') = Phase_sweep ->
  gray (gc s') = gray (gc s) -> gray_size (gc s') = gray_size (gc s) -> pure (gc s') = pure (gc s) -> markhp (gc s') = markhp (gc s) -> weak (gc s') = weak (gc s) ->
  roots s' = roots s -> globals s' = globals s -> young_ptr s' = young_ptr s -> chunks s' = chunks s ->
  (exists n, In (chunk (gc s'), n) (chunks s') /\ limit (gc s') = chunk (gc s') + n /\ chunk (gc s') <= sweep_hp (gc s') <= limit (gc s')) ->
  (forall a b', hget (hp s') a = Some b' -> exists b, hget (hp s) a = Some b /\ tag b' = tag b /\ fs b' = fs b /\ (col b' = col b \/ col b' = White) /\
      (sweep_hp (gc s') <= a - 8 -> col b' = col b /\ sweep_hp (gc s) <= a - 8) /\ (a - 8 < sweep_hp (gc s') -> col b' = White /\ (a - 8 < sweep_hp (gc s) \/ col b = Black))) ->
  (forall a, sv s a -> exists b', hget (hp s') a = Some b') -> core s'.
Proof.
  intros [W CL _ RS] ST PS PS' E1 E2 E3 E4 E5 E6 E7 E8 E9 WA BW FW. specialize (RS ltac:(congruence)).
  assert (forall a, is_young a = true -> hget (hp s) a = None) as NY by (intros a; apply (empty_young _ _ grow_ok outside s a W ST)).
  assert (forall a, sv s' a <-> sv s a) as SV.
  { intros a. split.
    - intros (b' & B' & Q). destruct (BW a b' B') as (b & B & T & F & C & C1 & C2). exists b. split; [exact B|]. rewrite PS, PS' in *. destruct Q as [Q|[Q|[Q|Q]]].
      + now left.
      + discriminate.
      + right. right. left. destruct C; congruence.
      + right. right. destruct (C2 Q) as [_ [K|K]]; auto.
    - intros S. destruct (FW a S) as (b' & B'). destruct (BW a b' B') as (b & B & T & F & C & C1 & C2). exists b'. split; [exact B'|].
      destruct S as (b2 & B2 & Q). assert (b2 = b) as -> by congruence. rewrite PS, PS' in *.
      destruct (Z_lt_dec (a - 8) (sweep_hp (gc s'))) as [LT|LT]; [auto|]. destruct (C1 ltac:(lia)) as [K1 K2]. destruct Q as [Q|[Q|[Q|Q]]]; auto; [right; right; left; congruence|lia]. }
  assert (forall v, good s' v <-> good s v) as G by (intros v; unfold Gc_Inv.good; now rewrite SV).
  constructor.
  - destruct W. constructor; rewrite ?E7, ?E8, ?E9; auto.
    + eapply layout_same; [exact w_lay|exact E9|]. intros a b' Y A. destruct (BW a b' A) as (b & B & _ & F & _). exists b. split; [exact B|now rewrite F].
    + intros a b' A Y. destruct (BW a b' A) as (b & B & _). rewrite (NY a Y) in B. discriminate.
    + intros a b' A Y. destruct (BW a b' A) as (b & B & T & F & [C|C] & _); [rewrite C; eauto|congruence].
    + intros a b' A T0. destruct (BW a b' A) as (b & B & T & F & _). rewrite F. apply (w_wlen a b B). congruence.
  - destruct CL. constructor; rewrite ?E6, ?E7.
    + intros v I. rewrite G. auto.
    + rewrite G. auto.
    + intros a b' v S A T0 I. rewrite SV in S. rewrite G. destruct (BW a b' A) as (b & B & T & F & _). apply (cl_fields a b v); auto; congruence.
    + intros a b' v S A T0 I. rewrite SV in S. rewrite G. destruct (BW a b' A) as (b & B & T & F & _). left.
      destruct (cl_weak a b v) as [Q|(Q & _)]; auto; congruence.
  - congruence.
  - intros _. destruct RS. constructor; rewrite ?E1, ?E2, ?E3, ?E4, ?E5; auto.
    + intros a b' Y A. destruct (BW a b' A) as (b & B & T & F & [C|C] & _); [rewrite C; eauto|congruence].
    + intros a b' Y A LT. destruct (BW a b' A) as (b & B & T & F & C & C1 & C2). now destruct (C2 LT).
    + intros a. rewrite E5, (rs_noweak PS). intros [].
Qed.
Lemma started_rtok s s' : rtok s -> started s -> young_ptr s' = young_ptr s -> tab s' = tab s ->
  (forall a b', hget (hp s') a = Some b' -> exists b, hget (hp s) a = Some b /\ tag b' = tag b /\ fs b' = fs b) -> rtok s'.
Proof.
  intros [R1 R2 R3 R4] ST E1 E2 BW. specialize (R4 ST). constructor; rewrite ?E2, ?R4; auto.
  - intros a i [].
  - intros a b' i x Y A T X YX. exfalso. destruct (BW a b' A) as (b & B & T' & F). rewrite F in X. destruct (R2 a b i x Y B ltac:(lia) X YX) as (I & _). rewrite R4 in I. destruct I.
Qed.

Lemma sweep_ok s : inv s -> started s -> phase (gc s) = Phase_sweep ->
  exists r s', sweep_step grow_ok free_size s = Ret (r, s') /\ inv s' /\ roots s' = roots s /\ globals s' = globals s /\
    (forall a b', hget (hp s') a = Some b' -> exists b, hget (hp s) a = Some b /\ tag b' = tag b /\ fs b' = fs b) /\
    match r with
    | SwFree a => ~ sv s a /\ hget (hp s') a = None /\ phase (gc s') = Phase_sweep /\
        (forall c, c <> a -> hget (hp s') c = hget (hp s) c) /\
        (forall c b, c <> a -> hget (hp s) c = Some b -> sweep_hp (gc s) <= c - 8 -> sweep_hp (gc s') <= c - 8)
    | SwCycle => phase (gc s') = Phase_mark /\ (forall a b, hget (hp s) a = Some b -> a - 8 < sweep_hp (gc s) /\ col b = White) /\
        (forall a, ~ In a (roots s) -> a <> globals s -> hget (hp s') a = hget (hp s) a) /\
        (forall a b, hget (hp s) a = Some b -> exists b', hget (hp s') a = Some b')
    | SwOther => phase (gc s') = Phase_sweep /\ (forall a b, hget (hp s) a = Some b -> col b = White -> sweep_hp (gc s) <= a - 8 -> hget (hp s') a = Some b /\ sweep_hp (gc s') <= a - 8) /\
        (forall a b, hget (hp s) a = Some b -> exists b', hget (hp s') a = Some b')
    end.
Proof.
  intros [C RT] ST PS. pose proof C as [W CL _ RS]. specialize (RS ltac:(congruence)). pose proof RS as [G1 G2 G3 G4 WA NG BL WL NW].
  destruct WA as (n & CI & LI & RG). pose proof (w_lay _ _ _ _ W) as L. specialize (NW PS).
  assert (forall a b, hget (hp s) a = Some b -> is_young a = false) as NY.
  { intros a b A. destruct (is_young a) eqn:Y; [|reflexivity]. rewrite (empty_young _ _ grow_ok outside s a W ST Y) in A. discriminate. }
  unfold sweep_step. destruct (Z.ltb_spec (sweep_hp (gc s)) (limit (gc s))) as [LT|LT].
  - destruct (hget (hp s) (sweep_hp (gc s) + 8)) as [b|] eqn:B.
    + set (p := sweep_hp (gc s)) in *. pose proof (NY _ _ B) as Y. destruct (walk_block young_start young_end grow_ok outside s (chunk (gc s)) n p b L CI ltac:(lia) B Y) as (LN & LE & DJ).
      set (p' := p + 8 * (1 + zlen (fs b))) in *. set (s1 := set_gc s _).
      assert (~ col b = White -> col b = Black) as CB.
      { intros N. pose proof (NG _ _ Y B). pose proof (w_blue _ _ _ _ W _ _ B Y). destruct (col b); congruence. }
      destruct (color_eqb_spec (col b) White) as [CW|CW].
      * rewrite CW. exists (SwFree (p + 8)). eexists. split; [reflexivity|]. set (s2 := set_hp _ _).
        assert (forall a, hget (hp s2) a = if a =? p + 8 then None else hget (hp s) a) as H2 by (intros a; unfold s2; cbn [hp set_hp]; apply hget_hdel).
        assert (~ sv s (p + 8)) as NS.
        { intros (b2 & B2 & Q). assert (b2 = b) as -> by congruence. fold p in Q. rewrite PS in Q. destruct Q as [Q|[Q|[Q|Q]]]; [congruence|discriminate|congruence|lia]. }
        assert (forall a b', hget (hp s2) a = Some b' -> exists b, hget (hp s) a = Some b /\ tag b' = tag b /\ fs b' = fs b) as BW.
        { intros a b' A. rewrite H2 in A. destruct (Z.eqb_spec a (p + 8)); [discriminate|]. exists b'. auto. }
        assert (core s2) as C2.
        { apply (sweep_core s); auto; cbn [s2 s1 gc set_gc set_hp set_sweep chunk limit sweep_hp chunks].
          - exists n. split; [exact CI|]. split; [exact LI|lia].
          - intros a b' A. rewrite H2 in A. destruct (Z.eqb_spec a (p + 8)) as [E|N]; [discriminate|]. exists b'. split; [exact A|]. repeat (split; [reflexivity|]). split; [now left|].
            pose proof (NY _ _ A) as YA. destruct (DJ a b' A YA N) as [K|K]; split; intros Q; fold p; try lia.
            + split; [now apply (BL a b' YA A)|now left].
            + split; [reflexivity|lia].
          - intros a S. pose proof S as (b' & B' & _). exists b'. rewrite H2. destruct (Z.eqb_spec a (p + 8)) as [->|N]; [contradiction|exact B']. }
        split; [constructor; [exact C2|now apply (started_rtok s)]|]. split; [reflexivity|]. split; [reflexivity|]. split; [exact BW|].
        split; [exact NS|]. split; [rewrite H2, Z.eqb_refl; reflexivity|]. split; [exact PS|]. split.
        -- intros c N. rewrite H2. destruct (Z.eqb_spec c (p + 8)); [contradiction|reflexivity].
        -- intros c d N D Q. cbn [s2 s1 gc set_gc set_hp set_sweep sweep_hp]. destruct (DJ c d D (NY _ _ D) N); lia.
      * assert (exists s2, (match col b with White => Ret (SwFree (p + 8), set_hp s1 (hdel (hp s) (p + 8))) | Blue => UB | _ => Ret (SwOther, set_hp s1 (hput (hp s) (p + 8) (set_col b White))) end) = Ret (SwOther, s2)
            /\ s2 = set_hp s1 (hput (hp s) (p + 8) (set_col b White))) as (s2 & E2 & D2).
        { rewrite (CB CW). eauto. }
        rewrite E2. exists SwOther, s2. split; [reflexivity|].
        assert (forall a, hget (hp s2) a = if a =? p + 8 then Some (set_col b White) else hget (hp s) a) as H2 by (intros a; rewrite D2; cbn [hp set_hp]; apply hget_hput).
        assert (forall a b', hget (hp s2) a = Some b' -> exists b, hget (hp s) a = Some b /\ tag b' = tag b /\ fs b' = fs b) as BW.
        { intros a b' A. rewrite H2 in A. destruct (Z.eqb_spec a (p + 8)) as [->|N]; [injection A as <-; exists b; auto|]. exists b'. auto. }
        assert (core s2) as C2.
        { apply (sweep_core s); rewrite ?D2; auto; cbn [s1 gc set_gc set_hp set_sweep chunk limit sweep_hp chunks].
          - exists n. split; [exact CI|]. split; [exact LI|lia].
          - intros a b' A. rewrite <- D2, H2 in A. destruct (Z.eqb_spec a (p + 8)) as [->|N].
            + injection A as <-. exists b. split; [exact B|]. cbn. repeat (split; [reflexivity|]). split; [now right|]. split; [lia|]. split; [reflexivity|right; auto].
            + exists b'. split; [exact A|]. repeat (split; [reflexivity|]). split; [now left|].
              pose proof (NY _ _ A) as YA. destruct (DJ a b' A YA N) as [K|K]; split; intros Q; fold p; try lia.
              * split; [now apply (BL a b' YA A)|now left].
              * split; [reflexivity|lia].
          - intros a S. pose proof S as (b' & B' & _). rewrite <- D2, H2. destruct (Z.eqb_spec a (p + 8)); eauto. }
        split; [constructor; [exact C2|apply (started_rtok s); auto; rewrite D2; reflexivity]|]. split; [rewrite D2; reflexivity|]. split; [rewrite D2; reflexivity|]. split; [exact BW|].
        split; [rewrite D2; exact PS|]. split.
        -- intros a c A CA Q. rewrite H2. destruct (Z.eqb_spec a (p + 8)) as [->|N]; [congruence|]. split; [exact A|]. rewrite D2. cbn [s1 gc set_gc set_hp set_sweep sweep_hp].
           destruct (DJ a c A (NY _ _ A) N); lia.
        -- intros a c A. rewrite H2. destruct (a =? p + 8); eauto.
    + destruct (FB s (sweep_hp (gc s)) (chunk (gc s)) n L CI ltac:(lia) B) as (F1 & F2 & F3). set (s2 := set_gc _ _). exists SwOther, s2. split; [reflexivity|].
      assert (forall a b', hget (hp s2) a = Some b' -> exists b, hget (hp s) a = Some b /\ tag b' = tag b /\ fs b' = fs b) as BW by (intros a b' A; exists b'; auto).
      split; [constructor; [|now apply (started_rtok s)]|].
      * apply (sweep_core s); auto; cbn [s2 gc set_gc set_sweep chunk limit sweep_hp chunks hp].
        -- exists n. split; [exact CI|]. split; [exact LI|lia].
        -- intros a b' A. exists b'. split; [exact A|]. repeat (split; [reflexivity|]). split; [now left|]. pose proof (NY _ _ A) as YA. specialize (F3 a b' A YA).
           split; intros Q; [split; [reflexivity|lia]|]. split; [apply (BL a b' YA A); lia|left; lia].
        -- intros a (b' & B' & _). eauto.
      * split; [reflexivity|]. split; [reflexivity|]. split; [exact BW|]. split; [exact PS|]. split; [|eauto]. intros a b A _ Q. split; [exact A|]. cbn [s2 gc set_gc set_sweep sweep_hp].
        specialize (F3 a b A (NY _ _ A)). lia.
  - destruct (chunk_after (chunks s) (chunk (gc s))) as [[c2 n2]|] eqn:CA.
    + set (s2 := set_gc _ _). exists SwOther, s2. split; [reflexivity|].
      assert (In (c2, n2) (chunks s) /\ chunk (gc s) + n <= c2) as [CI2 LE2].
      { pose proof (chunk_after_spec _ (l_sorted _ _ _ _ L) (fun c n => chunk_pos young_start young_end outside s c n L) _ n CI) as Q. rewrite CA in Q. tauto. }
      pose proof (l_chunk _ _ _ _ L c2 n2 CI2) as (_ & NP & _).
      assert (forall a b, hget (hp s) a = Some b -> a - 8 < chunk (gc s) + n \/ c2 <= a - 8) as GAP.
      { intros a b A. pose proof (past_chunk young_start young_end grow_ok outside s (chunk (gc s)) n a b L CI A (NY _ _ A)) as Q. rewrite CA in Q. tauto. }
      assert (forall a b', hget (hp s2) a = Some b' -> exists b, hget (hp s) a = Some b /\ tag b' = tag b /\ fs b' = fs b) as BW by (intros a b' A; exists b'; auto).
      split; [constructor; [|now apply (started_rtok s)]|].
      * apply (sweep_core s); auto; cbn [s2 gc set_gc set_sweep chunk limit sweep_hp chunks hp].
        -- exists n2. split; [exact CI2|]. split; [reflexivity|lia].
        -- intros a b' A. exists b'. split; [exact A|]. repeat (split; [reflexivity|]). split; [now left|]. pose proof (NY _ _ A) as YA. specialize (GAP a b' A).
           split; intros Q; [split; [reflexivity|lia]|]. split; [apply (BL a b' YA A); lia|left; lia].
        -- intros a (b' & B' & _). eauto.
      * split; [reflexivity|]. split; [reflexivity|]. split; [exact BW|]. split; [exact PS|]. split; [|eauto]. intros a b A _ Q. split; [exact A|]. cbn [s2 gc set_gc set_sweep sweep_hp].
        specialize (GAP a b A). lia.
    + assert (forall a b, hget (hp s) a = Some b -> a - 8 < sweep_hp (gc s)) as ALL.
      { intros a b A. pose proof (past_chunk young_start young_end grow_ok outside s (chunk (gc s)) n a b L CI A (NY _ _ A)) as Q. rewrite CA in Q. lia. }
      set (s1 := set_gc s _). unfold start_cycle.
      assert (recol s s1) as R1 by apply recol_gc. assert (wf s1) as W1 by (apply (recol_wf _ _ _ s); auto).
      assert (stack_ok s1) as S1.
      { constructor; cbn [s1 gc set_gc set_sweep gray gray_size]; rewrite ?G1; [intros x []|constructor| |exact G2]. change (@zlen Z []) with 0. lia. }
      assert (pure_ok s1) as P1.
      { intros _ a b Y A G. now elim (NG a b Y A). }
      destruct (darken_ok young_start young_end grow_ok outside (globals s1) s1) as (s2 & E2 & GR2 & S2 & P2 & D2 & O2); auto.
      { apply W1. }
      { apply (some_darkenable young_start young_end outside s1 _ W1). exact (good_some young_start young_end outside s _ (cl_globals _ _ _ _ CL)). }
      rewrite E2. cbn [bind]. assert (wf s2) as W2 by (apply (greyer_wf _ _ _ s1); auto).
      destruct (darken_all_ok young_start young_end grow_ok outside (roots s2) s2) as (s3 & E3 & GR3 & S3 & P3 & D3 & O3); auto.
      { apply W2. }
      { apply Forall_forall. intros x I. rewrite (g_roots _ _ _ _ GR2) in I. apply (darkenable_grey young_start young_end s1 s2 x GR2). apply (some_darkenable young_start young_end outside s1 x W1).
        exact (good_some young_start young_end outside s _ (cl_roots _ _ _ _ CL x I)). }
      rewrite E3. cbn [bind]. set (s4 := set_gc s3 _). exists SwCycle, s4. split; [reflexivity|].
      assert (greyer s1 s3) as GR by (apply (greyer_trans _ _ s1 s2 s3); auto).
      assert (recol s s4) as R4.
      { apply (recol_trans _ _ s s1); auto. apply (recol_trans _ _ s1 s3); [now apply recol_greyer|apply recol_gc]. }
      assert (wf s4) as W4 by (apply (recol_wf _ _ _ s); auto).
      assert (forall a b', hget (hp s4) a = Some b' -> exists b, hget (hp s) a = Some b /\ tag b' = tag b /\ fs b' = fs b) as BW.
      { intros a b' A. destruct (rc_bw _ _ _ _ _ _ R4 A) as (b & B & T & F & _). eauto. }
      assert (forall a b, hget (hp s) a = Some b -> col b = White) as AW.
      { intros a b A. apply (BL a b (NY _ _ A) A). eauto. }
      assert (forall a b', hget (hp s4) a = Some b' -> is_young a = false /\ (col b' = White \/ col b' = Gray)) as CO.
      { intros a b' A. destruct (g_bw _ _ _ _ _ _ GR A) as (b & B & _ & _ & Q). pose proof (AW a b B). split; [exact (NY _ _ B)|]. destruct Q as [Q|(_ & Q & _)]; [left; congruence|auto]. }
      assert (forall a, sv s4 a <-> exists b, hget (hp s) a = Some b) as SV.
      { intros a. split.
        - intros (b' & B' & _). destruct (BW a b' B') as (b & B & _). eauto.
        - intros (b & B). destruct (rc_fw _ _ _ _ R4 a b B) as (b' & B' & _). exists b'. split; [exact B'|]. right. now left. }
      assert (forall a, sv s a <-> exists b, hget (hp s) a = Some b) as SV0.
      { intros a. split; [intros (b & B & _); eauto|]. intros (b & B). exists b. split; [exact B|]. right. right. right. eauto. }
      assert (forall v x, (v = globals s \/ In v (roots s)) -> is_young v = false -> hget (hp s4) v = Some x -> col x <> White) as DK.
      { intros v x V Y X. destruct V as [->|V].
        - apply (not_white_grey young_start young_end s2 s3 (globals s) GR3); [|exact X]. intros y Y2. apply (D2 y); [|exact Y2].
          rewrite <- (greyer_in_heap _ _ _ _ _ GR2). apply (old_heap young_start young_end outside ZO s2 _ y W2); auto.
        - apply (D3 v x); [rewrite (g_roots _ _ _ _ GR2); exact V| |exact X]. rewrite <- (greyer_in_heap _ _ _ _ _ GR3).
          apply (old_heap young_start young_end outside ZO s3 v x); auto. apply (greyer_wf _ _ _ s2); auto. }
      split; [constructor; [constructor|]|].
      * exact W4.
      * apply (recol_closed _ _ _ s s4); auto.
        -- intros a. now rewrite SV, SV0.
        -- cbn. rewrite PS. split; discriminate.
        -- rewrite NW. intros a [].
      * intros _. constructor.
        -- destruct S3. constructor; auto.
        -- intros Q a b Y A G. destruct (P3 Q a b Y A G) as [K|[K _]]; [now left|]. exfalso. apply K. rewrite (g_markhp _ _ _ _ GR). exact G4.
        -- cbn. congruence.
        -- intros a. cbn [s4 gc set_gc set_walk weak set_phase]. rewrite (g_weak _ _ _ _ GR). cbn [s1 gc set_gc set_sweep weak]. rewrite NW. intros [].
        -- rewrite (rc_roots _ _ _ _ R4). intros v I Y b B K. exfalso. apply (DK v b); auto.
        -- rewrite (rc_globals _ _ _ _ R4). intros Y b B K. exfalso. apply (DK (globals s) b); auto.
        -- intros a b v Y A. destruct (CO a b A). congruence.
        -- intros a b v Y A K. destruct (CO a b A) as [_ [Q|Q]]; congruence.
        -- intros a b v Y A K. destruct (CO a b A) as [_ [Q|Q]]; congruence.
      * cbn. congruence.
      * apply (started_rtok s); auto; [apply R4|apply R4].
      * split; [apply R4|]. split; [apply R4|]. split; [exact BW|]. split; [reflexivity|]. split; [eauto|]. split.
        -- intros a N1 N2. cbn [s4 hp set_gc]. rewrite O3, O2; [reflexivity|exact N2|]. now rewrite (g_roots _ _ _ _ GR2).
        -- intros a b A. destruct (rc_fw _ _ _ _ R4 a b A) as (b' & B' & _). eauto.
Qed.
End Sweep.
