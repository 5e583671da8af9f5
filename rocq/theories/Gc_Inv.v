(** The invariant of the collectors, and its preservation by the mutator's steps. *)
From Coq Require Import Sorting.Sorted.
From Verif Require Import Base ArrayLib Gc_Model Gc_Spec Gc_Heap Gc_Dark.

Section Inv.
Variables young_start young_end : Z.
Variable alloc_at : st -> Z -> option (Z * list (Z * Z) * list Z).
Variable grow_ok : st -> bool.
Variable outside : Z -> Prop.
Notation is_young := (is_young young_start young_end).
Notation layout := (layout young_start young_end outside).
Notation stack_ok := (stack_ok young_start young_end).
Notation pure_ok := (pure_ok young_start young_end).
Notation greyer := (greyer young_start young_end).
Notation known := (known outside).
Hypothesis AL : allocator young_start young_end alloc_at outside.
Hypothesis ZO : zone young_start young_end outside.

(** ** Definitions *)

(** a block that will survive the current sweep *)
Definition sv (s : st) (a : Z) : Prop := exists b, hget (hp s) a = Some b /\
  (is_young a = true \/ phase (gc s) = Phase_mark \/ col b = Black \/ a - 8 < sweep_hp (gc s)).
Definition good (s : st) (v : Z) : Prop := Z.odd v = true \/ outside v \/ sv s v.
Definition some_block (s : st) (v : Z) : Prop := Z.odd v = true \/ outside v \/ exists b, hget (hp s) v = Some b.

Record wf (s : st) : Prop := {
  w_lay : layout s;
  w_young : forall a b, hget (hp s) a = Some b -> is_young a = true ->
    Z.even a = true /\ col b = Black /\ 1 <= zlen (fs b) /\ tag b <> Weak_tag /\ a + 8 * zlen (fs b) <= young_ptr s;
  w_ptr : young_start <= young_ptr s <= young_end /\ Z.even (young_ptr s) = true;
  w_blue : forall a b, hget (hp s) a = Some b -> is_young a = false -> col b <> Blue;
  w_wlen : forall a b, hget (hp s) a = Some b -> tag b = Weak_tag -> zlen (fs b) < 2147483648;
  w_chunks : chunks s <> [];
  w_glob : is_young (globals s) = false
}.

(** the table of references from old blocks to young ones *)
Definition yb (v : Z) : bool := is_block v && is_young v.
Definition rtcap (t : reftab) : Prop :=
  0 < rt_size t /\ 0 < rt_reserve t /\ (rt_limit t = rt_size t \/ rt_limit t = rt_size t + rt_reserve t) /\ zlen (rt t) < rt_limit t.
Record rtok (s : st) : Prop := {
  r_in : forall a i, In (a, i) (rt (tab s)) -> is_young a = false /\
    exists b x, hget (hp s) a = Some b /\ tag b <= Weak_tag /\ zget (fs b) i = Some x;
  r_all : forall a b i x, is_young a = false -> hget (hp s) a = Some b -> tag b <= Weak_tag -> zget (fs b) i = Some x -> yb x = true ->
    In (a, i) (rt (tab s)) /\ exists b', hget (hp s) x = Some b';
  r_cap : rtcap (tab s);
  r_empty : young_ptr s = young_start -> rt (tab s) = []
}.

Record closed (s : st) : Prop := {
  cl_roots : forall v, In v (roots s) -> good s v;
  cl_globals : good s (globals s);
  cl_fields : forall a b v, sv s a -> hget (hp s) a = Some b -> tag b < No_scan_tag -> In v (fs b) -> good s v;
  cl_weak : forall a b v, sv s a -> hget (hp s) a = Some b -> tag b = Weak_tag -> In v (fs b) ->
    good s v \/ (phase (gc s) = Phase_weak /\ In a (weak (gc s)) /\ some_block s v)
}.

(** a white block that will be met when the gray ones are scanned *)
Inductive wprot (s : st) : Z -> Prop :=
| wprot_gray a b v : is_young a = false -> hget (hp s) a = Some b -> tag b < No_scan_tag -> In v (fs b) -> col b = Gray -> wprot s v
| wprot_white a b v : is_young a = false -> hget (hp s) a = Some b -> tag b < No_scan_tag -> In v (fs b) -> col b = White -> wprot s a -> wprot s v.
Definition prot (s : st) (v : Z) : Prop := is_young v = false -> forall b, hget (hp s) v = Some b -> col b = White -> wprot s v.

Definition weak_list (s : st) : Prop := forall a, In a (weak (gc s)) -> is_young a = false /\
  exists b, hget (hp s) a = Some b /\ tag b = Weak_tag /\ col b = Black.

Record marking (s : st) : Prop := {
  mk_stack : stack_ok s;
  mk_pure : pure_ok s;
  mk_walk : markhp (gc s) <> 0 -> exists n, In (chunk (gc s), n) (chunks s) /\ limit (gc s) = chunk (gc s) + n /\
    chunk (gc s) <= markhp (gc s) <= limit (gc s);
  mk_weak : weak_list s;
  mk_roots : forall v, In v (roots s) -> prot s v;
  mk_globals : prot s (globals s);
  mk_young : forall a b v, is_young a = true -> hget (hp s) a = Some b -> tag b < No_scan_tag -> In v (fs b) -> prot s v;
  mk_black : forall a b v, is_young a = false -> hget (hp s) a = Some b -> col b = Black -> tag b < No_scan_tag -> In v (fs b) -> prot s v;
  mk_bweak : forall a b v, is_young a = false -> hget (hp s) a = Some b -> col b = Black -> tag b = Weak_tag -> ~ In a (weak (gc s)) ->
    In v (fs b) -> prot s v
}.

Record resting (s : st) : Prop := {
  rs_gray : gray (gc s) = [];
  rs_size : 2 <= gray_size (gc s);
  rs_pure : pure (gc s) = true;
  rs_markhp : markhp (gc s) = 0;
  rs_walk : exists n, In (chunk (gc s), n) (chunks s) /\ limit (gc s) = chunk (gc s) + n /\ chunk (gc s) <= sweep_hp (gc s) <= limit (gc s);
  rs_nogray : forall a b, is_young a = false -> hget (hp s) a = Some b -> col b <> Gray;
  rs_below : forall a b, is_young a = false -> hget (hp s) a = Some b -> a - 8 < sweep_hp (gc s) -> col b = White;
  rs_weak : weak_list s;
  rs_noweak : phase (gc s) = Phase_sweep -> weak (gc s) = []
}.

Record core (s : st) : Prop := {
  c_wf : wf s;
  c_closed : closed s;
  c_mark : phase (gc s) = Phase_mark -> marking s;
  c_rest : phase (gc s) <> Phase_mark -> resting s
}.
Record inv (s : st) : Prop := { i_core : core s; i_rt : rtok s }.

(** ** Basic facts *)
Lemma odd_even v : Z.odd v = negb (Z.even v).
Proof. now rewrite <- Z.negb_even. Qed.

Lemma alloc_even s a b : wf s -> hget (hp s) a = Some b -> Z.even a = true /\ ~ outside a.
Proof.
  intros W A. destruct (is_young a) eqn:Y.
  - destruct (w_young _ W _ _ A Y) as (E & _). split; [exact E|]. intros O. destruct ZO as (_ & _ & _ & Z1). specialize (Z1 _ O). congruence.
  - destruct (l_in _ _ _ _ (w_lay _ W) _ _ A Y) as (E & _). split; [exact E|]. intros O.
    pose proof (layout_in_heap _ _ _ _ _ _ (w_lay _ W) A Y) as H. rewrite (layout_outside _ _ _ _ _ (w_lay _ W) O) in H. discriminate.
Qed.
Lemma good_sv s a b : wf s -> good s a -> hget (hp s) a = Some b -> sv s a.
Proof.
  intros W [O|[O|S]] A; [|now destruct (alloc_even s a b W A)|exact S].
  destruct (alloc_even s a b W A) as [E _]. rewrite odd_even, E in O. discriminate.
Qed.
Lemma good_some s v : good s v -> some_block s v.
Proof. intros [O|[O|(b & B & _)]]; [now left|right; now left|right; right; eauto]. Qed.
Lemma some_yb s v : some_block s v -> yb v = true -> exists b, hget (hp s) v = Some b.
Proof.
  intros [O|[O|B]] Y; [| |exact B]; unfold yb, is_block in Y; apply andb_prop in Y as [Y1 Y2].
  - rewrite odd_even, Y1 in O. discriminate.
  - destruct ZO as (_ & _ & _ & Z1). rewrite (Z1 _ O) in Y2. discriminate.
Qed.
Lemma some_darkenable s v : wf s -> some_block s v -> darkenable s v.
Proof.
  intros W [O|[O|B]] I; [| |exact B]; apply andb_prop in I as [I1 I2].
  - unfold is_block in I1. rewrite odd_even, I1 in O. discriminate.
  - rewrite (layout_outside _ _ _ _ _ (w_lay _ W) O) in I2. discriminate.
Qed.
Lemma reach_good s v : wf s -> closed s -> reach s v -> good s v.
Proof.
  intros W C R. induction R as [v I| |a b v R IH A T I].
  - now apply (cl_roots _ C).
  - apply (cl_globals _ C).
  - apply (cl_fields _ C a b v); auto. eapply good_sv; eauto.
Qed.
Lemma reach_prot s v : marking s -> wf s -> reach s v -> prot s v.
Proof.
  intros M W R. induction R as [v I| |a b v R IH A T I].
  - now apply (mk_roots _ M).
  - apply (mk_globals _ M).
  - destruct (is_young a) eqn:Y; [eapply (mk_young _ M); eauto|].
    destruct (col b) eqn:C.
    + intros YV bv B CW. apply (wprot_white s a b v); auto. exact (IH Y b A C).
    + intros YV bv B CW. apply (wprot_gray s a b v); auto.
    + elim (w_blue _ W _ _ A Y C).
    + eapply (mk_black _ M); eauto.
Qed.
Lemma outside_prot s v : wf s -> (Z.odd v = true \/ outside v) -> prot s v.
Proof.
  intros W O Y b B _. destruct (alloc_even s v b W B) as [E N]. destruct O as [O|O]; [rewrite odd_even, E in O; discriminate|contradiction].
Qed.
Lemma known_good s v : wf s -> closed s -> known s v -> good s v.
Proof. intros W C [O|[O|R]]; [now left|right; now left|now apply reach_good]. Qed.
Lemma known_prot s v : marking s -> wf s -> known s v -> prot s v.
Proof. intros M W [O|[O|R]]; [apply outside_prot; auto|apply outside_prot; auto|now apply reach_prot]. Qed.

Lemma empty_young s a : wf s -> young_ptr s = young_start -> is_young a = true -> hget (hp s) a = None.
Proof.
  intros W E Y. destruct (hget (hp s) a) as [b|] eqn:A; [|reflexivity]. destruct (w_young _ W _ _ A Y) as (_ & _ & L & _ & K).
  unfold Gc_Model.is_young in Y. lia.
Qed.

(** ** Darkening keeps the invariant *)
Lemma greyer_sv s s' a : greyer s s' -> (sv s a <-> sv s' a).
Proof.
  intros G. unfold sv. rewrite (g_phase _ _ _ _ G), (g_sweep _ _ _ _ G). split; intros (b & A & K).
  - destruct (g_fw _ _ _ _ G _ _ A) as (b' & A' & _ & _ & C). exists b'. split; [exact A'|]. destruct C as [C|(C & _)]; [now rewrite C|].
    destruct K as [K|[K|[K|K]]]; auto. congruence.
  - destruct (g_bw _ _ _ _ _ _ G A) as (b' & A' & _ & _ & C). exists b'. split; [exact A'|]. destruct C as [C|(C & C' & _)]; [now rewrite <- C|].
    destruct K as [K|[K|[K|K]]]; auto. congruence.
Qed.
Lemma greyer_good s s' v : greyer s s' -> (good s v <-> good s' v).
Proof. intros G. unfold good. now rewrite (greyer_sv _ _ _ G). Qed.
Lemma greyer_wprot s s' v : greyer s s' -> wprot s v -> wprot s' v.
Proof.
  intros G P. induction P as [a b v Y A T I C|a b v Y A T I C W IH].
  - destruct (g_fw _ _ _ _ G _ _ A) as (b' & A' & T' & F' & [C'|(C' & _)]); [|congruence].
    apply (wprot_gray s' a b'); auto; congruence.
  - destruct (g_fw _ _ _ _ G _ _ A) as (b' & A' & T' & F' & [C'|(_ & C' & _)]).
    + apply (wprot_white s' a b'); auto; congruence.
    + apply (wprot_gray s' a b'); auto; congruence.
Qed.
Lemma greyer_prot s s' v : greyer s s' -> prot s v -> prot s' v.
Proof.
  intros G P Y b' B' C'. apply (greyer_wprot s s' v G). destruct (g_bw _ _ _ _ _ _ G B') as (b & B & _ & _ & [C|(_ & C & _)]); [|congruence].
  apply (P Y b B). congruence.
Qed.
Lemma greyer_wf s s' : greyer s s' -> wf s -> wf s'.
Proof.
  intros G W. destruct W. constructor.
  - eapply greyer_layout; eauto.
  - intros a b' A Y. destruct (g_bw _ _ _ _ _ _ G A) as (b & B & T & F & [C|(_ & _ & C)]); [|congruence].
    rewrite (g_ptr _ _ _ _ G), T, F, C. eauto.
  - now rewrite (g_ptr _ _ _ _ G).
  - intros a b' A Y. destruct (g_bw _ _ _ _ _ _ G A) as (b & B & T & F & [C|(_ & C & _)]); [rewrite C; eauto|congruence].
  - intros a b' A T0. destruct (g_bw _ _ _ _ _ _ G A) as (b & B & T & F & _). rewrite F. apply (w_wlen0 a b B). congruence.
  - now rewrite (g_chunks _ _ _ _ G).
  - now rewrite (g_globals _ _ _ _ G).
Qed.
Lemma greyer_closed s s' : greyer s s' -> closed s -> closed s'.
Proof.
  intros G C. destruct C. constructor.
  - intros v. rewrite (g_roots _ _ _ _ G). intros I. apply (greyer_good _ _ _ G). auto.
  - rewrite (g_globals _ _ _ _ G). apply (greyer_good _ _ _ G). auto.
  - intros a b' v S A T I. destruct (g_bw _ _ _ _ _ _ G A) as (b & B & T' & F & _). apply (greyer_good _ _ _ G).
    apply (cl_fields0 a b); auto; [now apply (greyer_sv _ _ _ G)|congruence|congruence].
  - intros a b' v S A T I. destruct (g_bw _ _ _ _ _ _ G A) as (b & B & T' & F & _).
    rewrite (g_phase _ _ _ _ G), (g_weak _ _ _ _ G).
    destruct (cl_weak0 a b v) as [Q|(Q1 & Q2 & Q3)]; auto; [now apply (greyer_sv _ _ _ G)|congruence|congruence| |].
    + left. now apply (greyer_good _ _ _ G).
    + right. split; [exact Q1|]. split; [exact Q2|]. destruct Q3 as [Q|[Q|(bv & Q)]]; [now left|right; now left|].
      right. right. destruct (g_fw _ _ _ _ G _ _ Q) as (b2 & B2 & _). eauto.
Qed.
Lemma greyer_weak_list s s' : greyer s s' -> weak_list s -> weak_list s'.
Proof.
  intros G W a. rewrite (g_weak _ _ _ _ G). intros I. destruct (W a I) as (Y & b & B & T & C). split; [exact Y|].
  destruct (g_fw _ _ _ _ G _ _ B) as (b' & B' & T' & _ & [C'|(C' & _)]); [|congruence]. exists b'. repeat split; congruence.
Qed.
Lemma core_greyer s s' : core s -> phase (gc s) = Phase_mark -> greyer s s' -> stack_ok s' -> pure_ok s' -> core s'.
Proof.
  intros I PM G S P. pose proof (c_mark _ I PM) as M. constructor.
  - eapply greyer_wf; eauto. apply I.
  - eapply greyer_closed; eauto. apply I.
  - intros _. destruct M. constructor; auto.
    + rewrite (g_markhp _ _ _ _ G), (g_chunk _ _ _ _ G), (g_limit _ _ _ _ G), (g_chunks _ _ _ _ G). auto.
    + eapply greyer_weak_list; eauto.
    + intros v. rewrite (g_roots _ _ _ _ G). intros IV. eapply greyer_prot; eauto.
    + rewrite (g_globals _ _ _ _ G). eapply greyer_prot; eauto.
    + intros a b' v Y A T IV. destruct (g_bw _ _ _ _ _ _ G A) as (b & B & T' & F & _). eapply greyer_prot; eauto. apply (mk_young0 a b); auto; congruence.
    + intros a b' v Y A C T IV. destruct (g_bw _ _ _ _ _ _ G A) as (b & B & T' & F & [C'|(_ & C' & _)]); [|congruence].
      eapply greyer_prot; eauto. apply (mk_black0 a b); auto; congruence.
    + intros a b' v Y A C T. rewrite (g_weak _ _ _ _ G). intros N IV. destruct (g_bw _ _ _ _ _ _ G A) as (b & B & T' & F & [C'|(_ & C' & _)]); [|congruence].
      eapply greyer_prot; eauto. apply (mk_bweak0 a b); auto; congruence.
  - rewrite (g_phase _ _ _ _ G). congruence.
Qed.
Lemma greyer_rtok s s' : greyer s s' -> rtok s -> rtok s'.
Proof.
  intros G R. destruct R. constructor; rewrite ?(g_tab _ _ _ _ G), ?(g_ptr _ _ _ _ G); auto.
  - intros a i I. destruct (r_in0 a i I) as (Y & b & x & A & T & X). split; [exact Y|].
    destruct (g_fw _ _ _ _ G _ _ A) as (b' & A' & T' & F & _). exists b', x. rewrite T', F. auto.
  - intros a b' i x Y A T X YX. destruct (g_bw _ _ _ _ _ _ G A) as (b & B & T' & F & _). rewrite T' in T. rewrite F in X.
    destruct (r_all0 a b i x Y B T X YX) as (I & bx & BX). split; [exact I|]. destruct (g_fw _ _ _ _ G _ _ BX) as (b2 & B2 & _). eauto.
Qed.

(** ** The protection depends on the old blocks only *)
Lemma wprot_mono s s' v : (forall a b, is_young a = false -> hget (hp s) a = Some b -> tag b < No_scan_tag -> col b <> Black -> hget (hp s') a = Some b) ->
  wprot s v -> wprot s' v.
Proof.
  intros H P. induction P as [a b v Y A T I C|a b v Y A T I C W IH].
  - apply (wprot_gray s' a b); auto. apply H; auto. congruence.
  - apply (wprot_white s' a b); auto. apply H; auto. congruence.
Qed.
Lemma prot_mono s s' v : (forall a b, is_young a = false -> hget (hp s) a = Some b -> tag b < No_scan_tag -> col b <> Black -> hget (hp s') a = Some b) ->
  (forall b', is_young v = false -> hget (hp s') v = Some b' -> col b' = White -> exists b, hget (hp s) v = Some b /\ col b = White) ->
  prot s v -> prot s' v.
Proof.
  intros H K P Y b' B' C'. apply (wprot_mono s s' v H). destruct (K b' Y B' C') as (b & B & C). exact (P Y b B C).
Qed.

(** ** Replacing the roots *)
Lemma core_roots s rs : core s -> (forall v, In v rs -> good s v) -> (phase (gc s) = Phase_mark -> forall v, In v rs -> prot s v) ->
  core (set_roots s rs).
Proof.
  intros [W C M R] G P. constructor.
  - destruct W. constructor; auto. eapply layout_same; eauto.
  - destruct C. constructor; auto.
  - intros PM. assert (forall v, prot s v -> prot (set_roots s rs) v) as PP by (intros v; apply prot_mono; cbn; eauto).
    destruct (M PM). constructor; eauto.
    + destruct mk_stack0. constructor; auto.
  - intros PM. destruct (R PM). constructor; auto.
Qed.

(** ** A new block in the major heap *)
Lemma alloc_color_gray g r : alloc_color g r <> Gray /\ alloc_color g r <> Blue.
Proof. unfold alloc_color. destruct (phase g); [|destruct (_ >=? _)|destruct (_ >=? _)]; split; discriminate. Qed.

Lemma core_new s s' r t l : core s -> hget (hp s) r = None -> is_young r = false ->
  (forall a, hget (hp s') a = if a =? r then Some (Blk (alloc_color (gc s) r) t l) else hget (hp s) a) ->
  layout s' -> incl (chunks s) (chunks s') -> gc s' = gc s -> young_ptr s' = young_ptr s -> globals s' = globals s ->
  roots s' = r :: roots s -> (t <= Weak_tag -> Forall (known s) l) -> (t = Weak_tag -> zlen l < 2147483648) -> core s'.
Proof.
  intros [W C M R] N Y H L CH G YP GL RO KN WL.
  assert (forall a b, hget (hp s) a = Some b -> hget (hp s') a = Some b) as UP.
  { intros a b A. rewrite H. destruct (Z.eqb_spec a r); [congruence|exact A]. }
  assert (forall a, sv s a -> sv s' a) as SV.
  { intros a (b & A & K). exists b. split; [now apply UP|]. now rewrite G. }
  assert (forall a, a <> r -> sv s' a -> sv s a) as SV'.
  { intros a NA (b & A & K). rewrite H in A. destruct (Z.eqb_spec a r); [contradiction|]. exists b. rewrite G in K. auto. }
  assert (forall v, good s v -> good s' v) as GD by (intros v [O|[O|S]]; [now left|right; now left|right; right; auto]).
  assert (sv s' r) as SR.
  { eexists. rewrite H, Z.eqb_refl. split; [reflexivity|]. rewrite G. cbn. unfold alloc_color. destruct (phase (gc s)); auto.
    - destruct (Z.geb_spec (r - 8) (sweep_hp (gc s))); auto.
    - destruct (Z.geb_spec (r - 8) (sweep_hp (gc s))); auto. }
  assert (t <= Weak_tag -> forall v, In v l -> good s' v) as KG.
  { intros T v I. apply GD. apply known_good; auto. specialize (KN T). rewrite Forall_forall in KN. auto. }
  assert (forall a b, hget (hp s') a = Some b -> a = r \/ (a <> r /\ hget (hp s) a = Some b)) as DN.
  { intros a b. rewrite H. destruct (Z.eqb_spec a r); auto. }
  assert (hget (hp s') r = Some (Blk (alloc_color (gc s) r) t l)) as HR by (rewrite H, Z.eqb_refl; reflexivity).
  assert (weak_list s -> weak_list s') as WLI.
  { intros Q a. rewrite G. intros I. destruct (Q a I) as (YA & b & B & K). split; [exact YA|]. exists b. auto. }
  pose proof (alloc_color_gray (gc s) r) as [NG NB].
  constructor.
  - destruct W. constructor; rewrite ?YP, ?GL; auto.
    + intros a b A YA. destruct (DN a b A) as [->|(_ & A')]; [congruence|]. eauto.
    + intros a b A YA. destruct (DN a b A) as [->|(_ & A')]; [|eauto]. rewrite HR in A. injection A as <-. exact NB.
    + intros a b A T. destruct (DN a b A) as [->|(_ & A')]; [|eauto]. rewrite HR in A. injection A as <-. cbn in *. auto.
    + intros Q. rewrite Q in CH. destruct (chunks s) as [|c0 cs0]; [auto|]. destruct (CH c0 (or_introl eq_refl)).
  - constructor; rewrite ?GL.
    + rewrite RO. intros v [<-|I]; [right; now right|]. apply GD. now apply (cl_roots _ C).
    + apply GD. apply (cl_globals _ C).
    + intros a b v S A T I. destruct (DN a b A) as [->|(NA & A')].
      * rewrite HR in A. injection A as <-. cbn in *. apply KG; auto. unfold Weak_tag, No_scan_tag in *. lia.
      * apply GD. eapply (cl_fields _ C); eauto.
    + intros a b v S A T I. rewrite G. destruct (DN a b A) as [->|(NA & A')].
      * rewrite HR in A. injection A as <-. cbn in *. left. apply KG; auto. lia.
      * destruct (cl_weak _ C a b v) as [Q|(Q1 & Q2 & Q3)]; auto. right. split; [exact Q1|]. split; [exact Q2|].
        destruct Q3 as [Q|[Q|(bv & Q)]]; [now left|right; now left|right; right; eauto].
  - rewrite G. intros PM. specialize (M PM).
    assert (alloc_color (gc s) r = Black) as BL by (unfold alloc_color; now rewrite PM).
    assert (forall v, prot s v -> prot s' v) as PP.
    { intros v. apply prot_mono; auto. intros b' YV B' CW. destruct (DN _ _ B') as [->|(_ & B)]; [|eauto].
      rewrite HR in B'. injection B' as <-. cbn in CW. congruence. }
    assert (t <= Weak_tag -> forall v, In v l -> prot s' v) as KP.
    { intros T v I. apply PP. apply known_prot; auto. specialize (KN T). rewrite Forall_forall in KN. auto. }
    destruct M. constructor; rewrite ?GL; auto.
    + destruct mk_stack0. constructor; rewrite ?G; auto. intros v I. destruct (so_gray v I) as (YV & b & B & K). split; [exact YV|]. exists b. auto.
    + intros Q a b YA A K. rewrite G in *. destruct (DN _ _ A) as [->|(_ & A')]; [|eauto]. rewrite HR in A. injection A as <-. cbn in K. congruence.
    + rewrite G. intros Q. destruct (mk_walk0 Q) as (n & I & K). exists n. auto.
    + rewrite RO. intros v [<-|I]; [|auto]. intros _ b B K. rewrite HR in B. injection B as <-. cbn in K. congruence.
    + intros a b v YA A T I. destruct (DN _ _ A) as [->|(_ & A')]; [congruence|]. eauto.
    + intros a b v YA A K T I. destruct (DN _ _ A) as [->|(_ & A')]; [|eauto]. rewrite HR in A. injection A as <-. cbn in *. apply KP; auto. unfold Weak_tag, No_scan_tag in *. lia.
    + intros a b v YA A K T NI I. rewrite G in NI. destruct (DN _ _ A) as [->|(_ & A')]; [|eauto]. rewrite HR in A. injection A as <-. cbn in *. apply KP; auto. lia.
  - rewrite G. intros PM. destruct (R PM). constructor; rewrite ?G; auto.
    + destruct rs_walk0 as (n & I & K). exists n. auto.
    + intros a b YA A. destruct (DN _ _ A) as [->|(_ & A')]; [|eauto]. rewrite HR in A. injection A as <-. exact NG.
    + intros a b YA A K. destruct (DN _ _ A) as [->|(_ & A')]; [|eauto]. rewrite HR in A. injection A as <-. cbn. unfold alloc_color.
      destruct (phase (gc s)); [congruence| |]; destruct (Z.geb_spec (r - 8) (sweep_hp (gc s))); auto; lia.
Qed.

(** ** A new young block *)
Lemma core_small s s' v t l : core s -> v = young_ptr s + 8 -> 1 <= zlen l -> v + 8 * zlen l <= young_end ->
  (forall a, hget (hp s') a = if a =? v then Some (Blk Black t l) else hget (hp s) a) ->
  chunks s' = chunks s -> gc s' = gc s -> young_ptr s' = young_ptr s + 8 * (zlen l + 1) -> globals s' = globals s ->
  roots s' = v :: roots s -> t <> Weak_tag -> (t < No_scan_tag -> Forall (known s) l) -> core s' /\ hget (hp s) v = None /\ is_young v = true.
Proof.
  intros [W C M R] V LL LE H CH G YP GL RO TW KN.
  destruct (w_ptr _ W) as [PT PE].
  assert (is_young v = true) as Y by (unfold Gc_Model.is_young; lia).
  assert (hget (hp s) v = None) as N.
  { destruct (hget (hp s) v) as [b|] eqn:B; [|reflexivity]. destruct (w_young _ W _ _ B Y) as (_ & _ & L1 & _ & L2). lia. }
  split; [|auto].
  assert (forall a b, hget (hp s) a = Some b -> hget (hp s') a = Some b) as UP.
  { intros a b A. rewrite H. destruct (Z.eqb_spec a v); [congruence|exact A]. }
  assert (forall a, sv s a -> sv s' a) as SV.
  { intros a (b & A & K). exists b. split; [now apply UP|]. now rewrite G. }
  assert (forall a, a <> v -> sv s' a -> sv s a) as SV'.
  { intros a NA (b & A & K). rewrite H in A. destruct (Z.eqb_spec a v); [contradiction|]. exists b. rewrite G in K. auto. }
  assert (forall v, good s v -> good s' v) as GD by (intros x [O|[O|S]]; [now left|right; now left|right; right; auto]).
  assert (hget (hp s') v = Some (Blk Black t l)) as HR by (rewrite H, Z.eqb_refl; reflexivity).
  assert (sv s' v) as SR by (eexists; rewrite HR; split; [reflexivity|auto]).
  assert (forall a b, hget (hp s') a = Some b -> a = v \/ (a <> v /\ hget (hp s) a = Some b)) as DN.
  { intros a b. rewrite H. destruct (Z.eqb_spec a v); auto. }
  assert (weak_list s -> weak_list s') as WLI.
  { intros Q a. rewrite G. intros I. destruct (Q a I) as (YA & b & B & K). split; [exact YA|]. exists b. auto. }
  constructor.
  - destruct W. constructor; rewrite ?GL; auto.
    + eapply layout_same; [exact w_lay0|exact CH|]. intros a b YA A. destruct (DN a b A) as [->|(_ & A')]; [congruence|]. eauto.
    + intros a b A YA. rewrite YP. destruct (DN a b A) as [->|(_ & A')].
      * rewrite HR in A. injection A as <-. cbn [fs col tag]. split; [|repeat split; auto; lia]. rewrite V, Z.even_add, PE. reflexivity.
      * destruct (w_young0 a b A' YA) as (? & ? & ? & ? & ?). repeat split; auto. lia.
    + rewrite YP. split; [lia|]. rewrite Z.even_add, PE, Z.even_mul. reflexivity.
    + intros a b A YA. destruct (DN a b A) as [->|(_ & A')]; [congruence|eauto].
    + intros a b A T. destruct (DN a b A) as [->|(_ & A')]; [|eauto]. rewrite HR in A. injection A as <-. cbn in *. contradiction.
    + now rewrite CH.
  - constructor; rewrite ?GL.
    + rewrite RO. intros x [<-|I]; [right; now right|]. apply GD. now apply (cl_roots _ C).
    + apply GD. apply (cl_globals _ C).
    + intros a b x S A T I. apply GD. destruct (DN a b A) as [->|(NA & A')].
      * rewrite HR in A. injection A as <-. cbn in *. apply known_good; auto. specialize (KN T). rewrite Forall_forall in KN. auto.
      * eapply (cl_fields _ C); eauto.
    + intros a b x S A T I. rewrite G. destruct (DN a b A) as [->|(NA & A')].
      * rewrite HR in A. injection A as <-. cbn in *. contradiction.
      * destruct (cl_weak _ C a b x) as [Q|(Q1 & Q2 & Q3)]; auto. right. split; [exact Q1|]. split; [exact Q2|].
        destruct Q3 as [Q|[Q|(bv & Q)]]; [now left|right; now left|right; right; eauto].
  - rewrite G. intros PM. specialize (M PM).
    assert (forall x, prot s x -> prot s' x) as PP.
    { intros x. apply prot_mono; auto. intros b' YV B' CW. destruct (DN _ _ B') as [->|(_ & B)]; [congruence|eauto]. }
    assert (t < No_scan_tag -> forall x, In x l -> prot s' x) as KP.
    { intros T x I. apply PP. apply known_prot; auto. specialize (KN T). rewrite Forall_forall in KN. auto. }
    destruct M. constructor; rewrite ?GL; auto.
    + destruct mk_stack0. constructor; rewrite ?G; auto. intros x I. destruct (so_gray x I) as (YV & b & B & K). split; [exact YV|]. exists b. auto.
    + intros Q a b YA A K. rewrite G in *. destruct (DN _ _ A) as [->|(_ & A')]; [congruence|eauto].
    + rewrite G, CH. auto.
    + rewrite RO. intros x [<-|I]; [|auto]. intros Q. congruence.
    + intros a b x YA A T I. destruct (DN _ _ A) as [->|(_ & A')]; [|eauto]. rewrite HR in A. injection A as <-. cbn in *. auto.
    + intros a b x YA A K T I. destruct (DN _ _ A) as [->|(_ & A')]; [congruence|eauto].
    + intros a b x YA A K T NI I. rewrite G in NI. destruct (DN _ _ A) as [->|(_ & A')]; [congruence|eauto].
  - rewrite G. intros PM. destruct (R PM). constructor; rewrite ?G; auto.
    + now rewrite CH.
    + intros a b YA A. destruct (DN _ _ A) as [->|(_ & A')]; [congruence|eauto].
    + intros a b YA A K. destruct (DN _ _ A) as [->|(_ & A')]; [congruence|eauto].
Qed.

(** ** Only what is found at addresses matters *)
Lemma core_ext s s' : core s -> (forall a, hget (hp s') a = hget (hp s) a) -> roots s' = roots s -> globals s' = globals s ->
  young_ptr s' = young_ptr s -> chunks s' = chunks s -> gc s' = gc s -> core s'.
Proof.
  intros [W C M R] H RO GL YP CH G.
  assert (forall a, sv s' a <-> sv s a) as SV by (intros a; unfold sv; now rewrite H, G).
  assert (forall a, good s' a <-> good s a) as GD by (intros a; unfold good; now rewrite SV).
  assert (forall v, prot s v -> prot s' v) as PP.
  { intros v. apply prot_mono; intros; rewrite H in *; eauto. }
  assert (weak_list s -> weak_list s') as WLI.
  { intros Q a. rewrite G, H. apply Q. }
  constructor.
  - destruct W. constructor; rewrite ?YP, ?GL, ?CH; auto; try (intros a b; rewrite H; eauto; fail).
    eapply layout_same; [exact w_lay0|exact CH|]. intros a b Y. rewrite H. eauto.
  - destruct C. constructor.
    + intros v. rewrite RO, GD. auto.
    + rewrite GL, GD. auto.
    + intros a b v. rewrite SV, H, GD. eauto.
    + intros a b v. rewrite SV, H, GD, G. unfold some_block. rewrite H. apply cl_weak0.
  - rewrite G. intros PM. destruct (M PM). constructor; rewrite ?GL; auto.
    + destruct mk_stack0. constructor; rewrite ?G; auto. intros v. rewrite H. auto.
    + unfold Gc_Dark.pure_ok in *. rewrite G. intros Q a b. rewrite H. exact (mk_pure0 Q a b).
    + now rewrite G, CH.
    + intros v. rewrite RO. auto.
    + intros a b v. rewrite H. eauto.
    + intros a b v. rewrite H. eauto.
    + intros a b v. rewrite H, G. eauto.
  - rewrite G. intros PM. destruct (R PM). constructor; rewrite ?G, ?CH; auto; intros a b; rewrite H; eauto.
Qed.
Lemma core_tab s t : core s -> core (set_tab s t).
Proof. intros C. apply (core_ext s); auto. Qed.

Lemma push_ref_ok a i s : rtcap (tab s) -> exists t, push_ref a i s = Ret (set_tab s t) /\ rtcap t /\ rt t = rt (tab s) ++ [(a, i)].
Proof.
  intros (A & B & C & D). unfold push_ref. destruct (Z.ltb_spec (zlen (rt (tab s))) (rt_size (tab s) + rt_reserve (tab s))) as [L|L]; [|lia].
  eexists. split; [reflexivity|]. cbn [rt rt_limit].
  destruct (Z.geb_spec (zlen (rt (tab s) ++ [(a, i)])) (rt_limit (tab s))) as [F|F].
  - unfold realloc_ref_table. cbn [rt rt_limit rt_size rt_reserve]. rewrite zlen_app in F. change (zlen [(a, i)]) with 1 in F.
    destruct (Z.eqb_spec (rt_limit (tab s)) (rt_size (tab s))); (split; [|reflexivity]); unfold rtcap; cbn [rt rt_limit rt_size rt_reserve];
      rewrite zlen_app; change (zlen [(a, i)]) with 1; lia.
  - split; [|reflexivity]. unfold rtcap. cbn [rt rt_limit rt_size rt_reserve]. lia.
Qed.

(** ** Allocation with [initialize] *)
Lemma init_fields_ok r : is_young r = false -> forall l i s pre suf b,
  hget (hp s) r = Some b -> fs b = pre ++ suf -> i = zlen pre -> zlen suf = zlen l -> rtcap (tab s) ->
  exists s', init_fields young_start young_end r i l s = Ret s' /\
    (forall a, hget (hp s') a = if a =? r then Some (set_fs b (pre ++ l)) else hget (hp s) a) /\
    roots s' = roots s /\ globals s' = globals s /\ young_ptr s' = young_ptr s /\ chunks s' = chunks s /\ gc s' = gc s /\ rtcap (tab s') /\
    (forall e, In e (rt (tab s')) <-> In e (rt (tab s)) \/ exists j x, e = (r, i + j) /\ zget l j = Some x /\ yb x = true).
Proof.
  intros Y. induction l as [|v l IH]; intros i s pre suf b B F I L CAP; cbn [init_fields].
  - exists s. split; [reflexivity|]. split.
    + intros a. destruct (Z.eqb_spec a r) as [->|N]; [|reflexivity]. rewrite B. f_equal. destruct b as [c t f]. cbn in *. unfold set_fs. cbn. f_equal.
      destruct suf; [exact F|rewrite zlen_cons in L; change (@zlen Z []) with 0 in L; pose proof (zlen_nonneg suf); lia].
    + repeat (split; [first [reflexivity|assumption]|]). intros e. split; [auto|]. intros [Q|(j & x & _ & Q & _)]; [exact Q|].
      pose proof (zget_range _ _ _ Q) as K. change (@zlen Z []) with 0 in K. lia.
  - destruct suf as [|w suf]; [rewrite zlen_cons in L; change (@zlen Z []) with 0 in L; pose proof (zlen_nonneg l); lia|].
    rewrite !zlen_cons in L. unfold initialize. cbn [wr]. rewrite B.
    assert (zset (fs b) i v = Some (pre ++ v :: suf)) as ZS.
    { rewrite F, I. pose proof (zlen_nonneg pre). pose proof (zlen_nonneg suf).
      destruct (zset_some (pre ++ w :: suf) (zlen pre) v) as (l' & Z1 & Z2 & Z3); [rewrite zlen_app, zlen_cons; lia|].
      rewrite Z1. f_equal. apply list_ext. intros k. rewrite Z3, !zget_app.
      destruct (Z.eqb_spec k (zlen pre)) as [->|N].
      - destruct (Z.ltb_spec (zlen pre) (zlen pre)); [lia|]. rewrite zget_cons. now rewrite Z.sub_diag.
      - destruct (Z.ltb_spec k (zlen pre)); [reflexivity|]. rewrite !zget_cons. destruct (Z.eqb_spec (k - zlen pre) 0); [lia|reflexivity]. }
    rewrite ZS. cbn [bind]. set (s1 := set_hp s _).
    assert (hget (hp s1) r = Some (set_fs b (pre ++ v :: suf))) as B1 by (unfold s1; cbn [hp set_hp]; apply hget_hput_same).
    assert (exists s2, (if is_block v && is_young v then push_ref r i s1 else Ret s1) = Ret s2 /\ hp s2 = hp s1 /\ roots s2 = roots s /\ globals s2 = globals s /\
       young_ptr s2 = young_ptr s /\ chunks s2 = chunks s /\ gc s2 = gc s /\ rtcap (tab s2) /\
       (forall e, In e (rt (tab s2)) <-> In e (rt (tab s)) \/ (e = (r, i) /\ yb v = true))) as (s2 & E2 & H2 & R2 & G2 & Y2 & C2 & GC2 & CAP2 & T2).
    { fold (yb v). destruct (yb v) eqn:YV.
      - destruct (push_ref_ok r i s1 CAP) as (t & P1 & P2 & P3). exists (set_tab s1 t). split; [exact P1|]. repeat (split; [first [reflexivity|assumption]|]).
        intros e. cbn [tab set_tab]. rewrite P3, in_app_iff. cbn. split; [intros [Q|[Q|[]]]; auto|intros [Q|[Q _]]; auto].
      - exists s1. repeat (split; [first [reflexivity|assumption]|]). intros e. split; [auto|]. intros [Q|[_ Q]]; [exact Q|discriminate]. }
    rewrite E2. cbn [bind].
    destruct (IH (i + 1) s2 (pre ++ [v]) suf (set_fs b (pre ++ v :: suf))) as (s3 & E3 & H3 & R3 & G3 & Y3 & C3 & GC3 & CAP3 & T3); auto.
    + now rewrite H2.
    + cbn [fs set_fs]. now rewrite <- app_assoc.
    + rewrite zlen_app. change (zlen [v]) with 1. lia.
    + lia.
    + exists s3. split; [exact E3|]. split; [|do 5 (split; [congruence|])].
      * intros a. rewrite H3. destruct (Z.eqb_spec a r) as [->|N]; [unfold set_fs; cbn; rewrite <- app_assoc; reflexivity|].
        rewrite H2. unfold s1. cbn [hp set_hp]. now apply hget_hput_other.
      * split; [exact CAP3|]. intros e. rewrite T3, T2. split.
        -- intros [[Q|[Q1 Q2]]|(j & x & Q1 & Q2 & Q3)]; [now left| |].
           ++ right. exists 0, v. rewrite Z.add_0_r. rewrite zget_cons. auto.
           ++ right. exists (j + 1), x. rewrite zget_cons. pose proof (zget_range _ _ _ Q2). destruct (Z.eqb_spec (j + 1) 0); [lia|].
              replace (j + 1 - 1) with j by lia. split; [rewrite Q1; f_equal; lia|auto].
        -- intros [Q|(j & x & Q1 & Q2 & Q3)]; [auto|]. rewrite zget_cons in Q2. destruct (Z.eqb_spec j 0) as [->|N].
           ++ left. right. rewrite Z.add_0_r in Q1. injection Q2 as ->. auto.
           ++ right. exists (j - 1), x. split; [rewrite Q1; f_equal; lia|auto].
Qed.

Lemma yb_ptr s v b : wf s -> yb v = true -> hget (hp s) v = Some b -> young_ptr s <> young_start.
Proof.
  intros W Y B E. unfold yb in Y. apply andb_prop in Y as [_ Y]. rewrite (empty_young s v W E Y) in B. discriminate.
Qed.

Lemma alloc_init_ok s t l : inv s -> 0 < zlen l -> t <= Weak_tag -> (t = Weak_tag -> zlen l < 2147483648) -> Forall (known s) l ->
  alloc_init young_start young_end alloc_at t l s = Raise FailExn \/
  exists r s', alloc_init young_start young_end alloc_at t l s = Ret (r, s') /\ inv (set_roots s' (r :: roots s')) /\
    hget (hp s) r = None /\ hget (hp s') r = Some (Blk (alloc_color (gc s) r) t l) /\ (forall a, a <> r -> hget (hp s') a = hget (hp s) a) /\
    roots s' = roots s /\ globals s' = globals s /\ gc s' = gc s.
Proof.
  intros [C R] L T WL KN. unfold alloc_init, alloc_shr. destruct (alloc_at s (zlen l)) as [[[r cs] junk]|] eqn:E; [|now left]. right.
  destruct (AL s (zlen l) r cs junk (w_lay _ (c_wf _ C)) ltac:(lia) E) as (A1 & A2 & A3 & A4 & A5). cbn [bind].
  set (s1 := tick_on _).
  destruct (init_fields_ok r A3 l 0 s1 [] junk (Blk (alloc_color (gc s) r) t junk)) as (s2 & E2 & H2 & R2 & G2 & Y2 & C2 & GC2 & CAP2 & T2); auto.
  { unfold s1. cbn [hp tick_on set_hp]. apply hget_hput_same. }
  { apply (r_cap _ R). }
  rewrite E2. cbn [bind]. exists r, s2. split; [reflexivity|].
  assert (forall a, hget (hp s2) a = if a =? r then Some (Blk (alloc_color (gc s) r) t l) else hget (hp s) a) as H.
  { intros a. rewrite H2. destruct (Z.eqb_spec a r) as [->|N]; [reflexivity|]. unfold s1. cbn [hp tick_on set_hp]. now apply hget_hput_other. }
  assert (forall v, In v l -> good s v) as LG.
  { intros v I. apply known_good; [apply C|apply C|]. rewrite Forall_forall in KN. auto. }
  assert (rt (tab s1) = rt (tab s)) as TS by reflexivity.
  split.
  - constructor.
    + apply (core_new s _ r t l); auto; try (cbn; congruence).
      * eapply layout_same; [apply (A5 (alloc_color (gc s) r) t)|cbn; rewrite C2; reflexivity|]. intros a b Y A. cbn in A. rewrite H in A. cbn [hp set_hp set_chunks].
        rewrite hget_hput. destruct (Z.eqb_spec a r) as [->|N]; [|eauto]. eexists. split; [reflexivity|]. injection A as <-. cbn. lia.
      * cbn. rewrite C2. exact A4.
      * cbn. now rewrite R2.
    + destruct R. constructor; cbn [tab set_roots young_ptr hp]; auto.
      * intros a i I. apply T2 in I as [I|(j & x & Q1 & Q2 & Q3)].
        -- rewrite TS in I. destruct (r_in0 a i I) as (Y & b & x & B & K). split; [exact Y|]. exists b, x. rewrite H. destruct (Z.eqb_spec a r); [congruence|auto].
        -- injection Q1 as -> ->. split; [exact A3|]. exists (Blk (alloc_color (gc s) r) t l), x. rewrite H, Z.eqb_refl. cbn. auto.
      * intros a b i x Y A TG X YX. rewrite H in A. destruct (Z.eqb_spec a r) as [->|N].
        -- injection A as <-. cbn in X. split; [apply T2; right; exists i, x; auto|].
           destruct (some_yb s x (good_some _ _ (LG x (zget_In _ _ _ X))) YX) as (bx & BX). exists bx. rewrite H. destruct (Z.eqb_spec x r); [congruence|exact BX].
        -- destruct (r_all0 a b i x Y A TG X YX) as (I & bx & BX). split; [apply T2; left; exact I|]. exists bx. rewrite H. destruct (Z.eqb_spec x r); [congruence|exact BX].
      * rewrite Y2. intros Q. destruct (rt (tab s2)) as [|e q] eqn:RT; [reflexivity|]. exfalso.
        destruct (proj1 (T2 e) (or_introl eq_refl)) as [I|(j & x & Q1 & Q2 & Q3)].
        -- rewrite TS in I. rewrite (r_empty0 Q) in I. destruct I.
        -- destruct (some_yb s x (good_some _ _ (LG x (zget_In _ _ _ Q2))) Q3) as (bx & BX). apply (yb_ptr s x bx (c_wf _ C) Q3 BX Q).
  - split; [exact A2|]. split; [rewrite H, Z.eqb_refl; reflexivity|]. split; [|auto]. intros a N. rewrite H. destruct (Z.eqb_spec a r); [contradiction|reflexivity].
Qed.

Lemma alloc_data_ok s t l : inv s -> 0 < zlen l -> (t = Weak_tag -> zlen l < 2147483648) ->
  (t <= Weak_tag -> Forall (fun w => known s w /\ is_young w = false) l) ->
  alloc_data alloc_at t l s = Raise FailExn \/
  exists r s', alloc_data alloc_at t l s = Ret (r, s') /\ inv (set_roots s' (r :: roots s')) /\
    hget (hp s) r = None /\ hget (hp s') r = Some (Blk (alloc_color (gc s) r) t l) /\ (forall a, a <> r -> hget (hp s') a = hget (hp s) a) /\
    roots s' = roots s /\ globals s' = globals s /\ gc s' = gc s.
Proof.
  intros [C R] L WL KN. unfold alloc_data, alloc_shr. destruct (alloc_at s (zlen l)) as [[[r cs] junk]|] eqn:E; [|now left]. right.
  destruct (AL s (zlen l) r cs junk (w_lay _ (c_wf _ C)) ltac:(lia) E) as (A1 & A2 & A3 & A4 & A5). cbn [bind].
  set (s1 := tick_on _).
  assert (hget (hp s1) r = Some (Blk (alloc_color (gc s) r) t junk)) as B1 by (unfold s1; cbn [hp tick_on set_hp]; apply hget_hput_same).
  rewrite B1. eexists r, _. split; [reflexivity|]. set (s2 := set_hp s1 _).
  assert (forall a, hget (hp s2) a = if a =? r then Some (Blk (alloc_color (gc s) r) t l) else hget (hp s) a) as H.
  { intros a. unfold s2, s1. cbn [hp tick_on set_hp set_chunks]. rewrite !hget_hput. now destruct (a =? r). }
  assert (tab s2 = tab s) as TS by reflexivity.
  split.
  - constructor.
    + apply (core_new s _ r t l); auto.
      * eapply layout_same; [apply (A5 (alloc_color (gc s) r) t)|reflexivity|]. intros a b Y A. cbn [hp set_roots] in A. rewrite H in A. cbn [hp set_hp set_chunks].
        rewrite hget_hput. destruct (Z.eqb_spec a r) as [->|N]; [|eauto]. eexists. split; [reflexivity|]. injection A as <-. cbn. lia.
      * intros T. eapply Forall_impl; [|apply (KN T)]. now intros w [Q _].
    + destruct R. constructor; cbn [tab set_roots young_ptr hp]; rewrite ?TS; auto.
      * intros a i I. destruct (r_in0 a i I) as (Y & b & x & B & K). split; [exact Y|]. exists b, x. rewrite H. destruct (Z.eqb_spec a r); [congruence|auto].
      * intros a b i x Y A TG X YX. rewrite H in A. destruct (Z.eqb_spec a r) as [->|N].
        -- injection A as <-. cbn in X, TG. specialize (KN TG). rewrite Forall_forall in KN. destruct (KN x (zget_In _ _ _ X)) as [_ NY].
           unfold yb in YX. rewrite NY, andb_false_r in YX. discriminate.
        -- destruct (r_all0 a b i x Y A TG X YX) as (I & bx & BX). split; [exact I|]. exists bx. rewrite H. destruct (Z.eqb_spec x r); [congruence|exact BX].
  - split; [exact A2|]. split; [rewrite H, Z.eqb_refl; reflexivity|]. split; [|auto]. intros a N. rewrite H. destruct (Z.eqb_spec a r); [contradiction|reflexivity].
Qed.
End Inv.
