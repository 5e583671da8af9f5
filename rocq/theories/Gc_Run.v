(** The invariant holds in every possible state; what is garbage when a cycle starts is freed. *)
From Coq Require Import Sorting.Sorted.
From Verif Require Import Base ArrayLib Gc_Model Gc_Spec Gc_Heap Gc_Dark Gc_Inv Gc_Store Gc_Minor Gc_Minor2 Gc_Major Gc_Sweep.

Section Run.
Variables young_start young_end : Z.
Variable alloc_at : st -> Z -> option (Z * list (Z * Z) * list Z).
Variable grow_ok : st -> bool.
Variable free_size : st -> Z -> Z.
Variable outside : Z -> Prop.
Notation is_young := (is_young young_start young_end).
Notation layout := (layout young_start young_end outside).
Notation known := (known outside).
Notation sv := (sv young_start young_end).
Notation good := (good young_start young_end outside).
Notation inv := (inv young_start young_end outside).
Notation step := (step young_start young_end alloc_at grow_ok free_size outside).
Notation run := (run young_start young_end alloc_at grow_ok free_size outside).
Notation possible := (possible young_start young_end alloc_at grow_ok free_size outside).
Hypothesis AL : allocator young_start young_end alloc_at outside.
Hypothesis FB : free_blocks young_start young_end free_size outside.
Hypothesis ZO : zone young_start young_end outside.

Lemma init_inv c n size : 0 < c -> 0 < n -> 0 < size -> (c + n <= young_start \/ young_end <= c) -> (forall w, outside w -> ~ c <= w < c + n) ->
  inv (init_st young_start c n size).
Proof.
  intros C N S Y O. destruct ZO as (Z1 & Z2 & Z3 & Z4). constructor; [constructor|]; cbn.
  - constructor; cbn; try discriminate; try lia.
    + constructor; cbn; try discriminate.
      * repeat constructor.
      * intros c' n' [Q|[]]. injection Q as <- <-. auto.
      * intros w c' n' W [Q|[]]. injection Q as <- <-. auto.
    + split; [lia|exact Z2].
    + now apply Z4.
  - constructor; cbn; try discriminate.
    + intros v [].
    + right. now left.
  - intros _. constructor; cbn; try discriminate; try congruence.
    + constructor; cbn; [intros v []|constructor| |]; [change (@zlen Z []) with 0|]; lia.
    + intros a [].

  - congruence.
  - constructor; cbn; try discriminate; auto.
    + intros a i [].
    + unfold rtcap. cbn. change (@zlen (Z * Z) []) with 0. lia.
Qed.

Lemma step_inv s e s' : inv s -> step s e s' -> inv s'.
Proof.
  intros I H. destruct H.
  - now apply (roots_step _ _ outside ZO).
  - eapply (globals_step _ _ outside ZO); eauto.
  - now apply (small_step _ _ grow_ok outside ZO s t l v s').
  - destruct (alloc_init_ok _ _ _ grow_ok outside AL ZO s t l I ltac:(lia) ltac:(lia) ltac:(assumption) ltac:(assumption)) as [E|(r & s2 & E & J & _)]; [congruence|].
    match goal with H : alloc_init _ _ _ _ _ _ = Ret _ |- _ => rewrite E in H; injection H as <- <- end. exact J.
  - destruct (alloc_data_ok _ _ _ grow_ok outside AL ZO s t l I ltac:(lia) ltac:(assumption) ltac:(assumption)) as [E|(r & s2 & E & J & _)]; [congruence|].
    match goal with H : alloc_data _ _ _ _ = Ret _ |- _ => rewrite E in H; injection H as <- <- end. exact J.
  - destruct (modify_ok _ _ grow_ok outside ZO s a b i v I) as (s2 & l & E & J & _); auto; [now apply zget_range in H2|].
    assert (s2 = s') as <- by congruence. exact J.
  - apply (write_ok _ _ grow_ok outside s a b l); auto.
  - destruct (weak_sub_ok _ _ grow_ok outside ZO s a b i I) as [E|(v2 & s2 & E & J & _)]; auto; [congruence|].
    match goal with H : weak_sub _ _ _ _ = Ret _ |- _ => rewrite E in H; injection H as <- <- end. exact J.
  - destruct (minor_ret _ _ alloc_at grow_ok outside AL ZO s I) as [_ K]. destruct (K fuel s' ltac:(assumption)) as (f & M).
    apply (minor_inv _ _ grow_ok outside ZO s s' f I M).
  - destruct (mark_ok _ _ grow_ok free_size outside ZO FB s I) as (s2 & E & J & _); auto. assert (s2 = s') as <- by congruence. exact J.
  - destruct (weak_ok _ _ grow_ok outside ZO s I) as (h & E & J & _); auto. rewrite E in *.
    match goal with H : Ret _ = Ret s' |- _ => injection H as <- end. exact J.
  - destruct (sweep_ok _ _ grow_ok free_size outside ZO FB s I) as (r2 & s2 & E & J & _); auto. assert (s2 = s') as <- by congruence. exact J.
Qed.
Lemma run_inv s evs s' : inv s -> run s evs s' -> inv s'.
Proof. intros I R. induction R as [|s e s1 l s2 S R IH]; [exact I|]. apply IH. eapply step_inv; eauto. Qed.
Lemma possible_inv s : possible s -> inv s.
Proof. intros (c & n & size & evs & C & N & S & Y & O & R). eapply run_inv; [|exact R]. now apply init_inv. Qed.

(** ** Garbage stays garbage until it is freed *)
Record gar (A : Z -> Prop) (s : st) : Prop := {
  ga_white : forall a, A a -> is_young a = false /\ exists b, hget (hp s) a = Some b /\ col b = White /\ (phase (gc s) <> Phase_mark -> sweep_hp (gc s) <= a - 8);
  ga_roots : forall v, In v (roots s) -> ~ A v;
  ga_globals : ~ A (globals s);
  ga_fields : forall a b v, hget (hp s) a = Some b -> ~ A a -> tag b < No_scan_tag -> In v (fs b) -> ~ A v
}.

Lemma gar_reach A s v : gar A s -> reach s v -> ~ A v.
Proof.
  intros G R. induction R as [v I| |a b v R IH B T I].
  - now apply (ga_roots _ _ G).
  - apply (ga_globals _ _ G).
  - apply (ga_fields _ _ G a b v); auto.
Qed.
Lemma gar_known A s v : inv s -> gar A s -> known s v -> ~ A v.
Proof.
  intros [[W _ _ _] _] G K N. destruct (ga_white _ _ G v N) as (_ & b & B & _). destruct (alloc_even _ _ outside ZO s v b W B) as [E NO]. destruct K as [K|[K|K]].
  - rewrite odd_even, E in K. discriminate.
  - contradiction.
  - eapply gar_reach; eauto.
Qed.
(** a new block *)
Lemma gar_alloc A s s' r b : gar A s -> hget (hp s) r = None -> hget (hp s') r = Some b -> (forall a, a <> r -> hget (hp s') a = hget (hp s) a) ->
  roots s' = roots s -> globals s' = globals s -> gc s' = gc s -> (tag b < No_scan_tag -> Forall (fun v => ~ A v) (fs b)) -> gar A (set_roots s' (r :: roots s')).
Proof.
  intros G N B O R GL E F.
  assert (~ A r) as NR by (intros Q; destruct (ga_white _ _ G r Q) as (_ & c & C & _); congruence).
  destruct G. constructor; cbn [gc set_roots hp roots globals]; rewrite ?R, ?GL, ?E; auto.
  - intros a Q. destruct (ga_white0 a Q) as (Y & c & C & K). split; [exact Y|]. exists c. rewrite O by congruence. auto.
  - intros v [<-|I]; auto.
  - intros a c v C NA T I. destruct (Z.eq_dec a r) as [->|NE].
    + assert (c = b) as -> by congruence. specialize (F T). rewrite Forall_forall in F. auto.
    + rewrite O in C by exact NE. eauto.
Qed.

Lemma gar_step A s e s' : inv s -> gar A s -> step s e s' ->
  match e with
  | ECycle => forall a, ~ A a
  | EFree a => gar (fun x => A x /\ x <> a) s'
  | EWeak v => ~ A v -> gar A s'
  | ETau => gar A s'
  end.
Proof.
  intros I G H. pose proof I as [[W CL MK RS] RT]. destruct H.
  - destruct G. constructor; auto. rewrite Forall_forall in H. intros v Q. eapply gar_known; eauto. constructor; auto.
  - pose proof (gar_reach _ _ _ G H). destruct G. constructor; auto.
  - destruct (small_step _ _ grow_ok outside ZO s t l v s' I) as (_ & N & Y & B & O & R & GL & E); auto.
    apply (gar_alloc A s s' v (Blk Black t l)); auto. cbn. intros T. eapply Forall_impl; [|exact (H2 T)]. intros x. now apply gar_known.
  - destruct (alloc_init_ok _ _ _ grow_ok outside AL ZO s t l I ltac:(lia) ltac:(lia) ltac:(assumption) ltac:(assumption)) as [E|(r & s2 & E & _ & N & B & O & R & GL & EG)]; [congruence|].
    rewrite E in H3. injection H3 as <- <-. apply (gar_alloc A s s2 r _ G N B); auto. intros _. cbn. eapply Forall_impl; [|exact H2]. intros x. now apply gar_known.
  - destruct (alloc_data_ok _ _ _ grow_ok outside AL ZO s t l I ltac:(lia) ltac:(assumption) ltac:(assumption)) as [E|(r & s2 & E & _ & N & B & O & R & GL & EG)]; [congruence|].
    rewrite E in H3. injection H3 as <- <-. apply (gar_alloc A s s2 r _ G N B); auto. cbn. intros T. eapply Forall_impl; [|apply H2; unfold No_scan_tag, Weak_tag in *; lia].
    intros x [K _]. now apply (gar_known A s).
  - (* assignment *)
    destruct (modify_ok _ _ grow_ok outside ZO s a b i v I) as (s2 & l & E & _ & Z1 & R & GL & PH & SW & WK & O & BW & FW); auto; [now apply zget_range in H2|].
    assert (s2 = s') as -> by congruence.
    assert (~ A a) as NA by (eapply gar_reach; eauto). assert (~ A v) as NV by (eapply gar_known; eauto).
    assert (~ A x -> gar A s') as K.
    { intros NX. destruct G. constructor; rewrite ?R, ?GL; auto.
      - intros c Q. destruct (ga_white0 c Q) as (Y & d & D & CW & P). split; [exact Y|]. exists d. rewrite PH, SW. rewrite O; [auto|congruence|]. intros Q1 _ _. congruence.
      - intros c d w D NC T J. destruct (BW c d D) as (d0 & D0 & T0 & F1 & F2). destruct (Z.eq_dec c a) as [->|NE].
        + rewrite (F2 eq_refl) in J. destruct (zset_In _ _ _ _ _ Z1 J) as [->|J0]; [exact NV|]. assert (d0 = b) as -> by congruence.
          apply (ga_fields0 a b w); auto. lia.
        + rewrite (F1 NE) in J. apply (ga_fields0 c d0 w); auto. lia. }
    destruct (Z.eqb_spec (tag b) Weak_tag) as [T|T].
    + exact K.
    + apply K. apply (ga_fields _ _ G a b x); auto; [unfold Weak_tag, No_scan_tag in *; lia|eapply zget_In; eauto].
  - (* data *)
    assert (~ A a) as NA by (eapply gar_reach; eauto).
    assert (forall c, hget (hput (hp s) a (set_fs b l)) c = if c =? a then Some (set_fs b l) else hget (hp s) c) as HH by (intros c; apply hget_hput).
    destruct G. constructor; cbn [gc set_hp hp roots globals]; auto.
    + intros c Q. destruct (ga_white0 c Q) as (Y & d & D & K). split; [exact Y|]. exists d. rewrite HH. destruct (Z.eqb_spec c a) as [->|NE]; [contradiction|auto].
    + intros c d v D NC T J. rewrite HH in D. destruct (Z.eqb_spec c a) as [->|NE]; [injection D as <-; cbn in T; unfold Weak_tag, No_scan_tag in *; lia|eauto].
  - (* a weak pointer is followed *)
    intros Q.
    destruct (weak_sub_ok _ _ grow_ok outside ZO s a b i I) as [E|(v2 & s2 & E & _ & Z1 & _ & _ & GR & O)]; auto; [congruence|].
    rewrite E in H3. injection H3 as -> ->. destruct G. constructor; cbn [gc set_roots hp roots globals]; rewrite ?(g_phase _ _ _ _ GR), ?(g_sweep _ _ _ _ GR), ?(g_roots _ _ _ _ GR), ?(g_globals _ _ _ _ GR); auto.
    + intros c QC. destruct (ga_white0 c QC) as (Y & d & D & K). split; [exact Y|]. exists d. rewrite O by congruence. auto.
    + intros x [<-|J]; auto.
    + intros c d x D NC T J. destruct (g_bw _ _ _ _ _ _ GR D) as (d0 & D0 & T0 & F0 & _). apply (ga_fields0 c d0 x); auto; [lia|congruence].
  - (* minor collection *)
    destruct (minor_ret _ _ alloc_at grow_ok outside AL ZO s I) as [_ K]. destruct (K fuel s' H) as (f & M).
    assert (forall w, ~ A w -> moved young_start young_end s s' f w -> ~ A (f w)) as FA.
    { intros w NW MV Q. destruct (Gc_Inv.yb young_start young_end w) eqn:Y.
      - destruct (MV Y) as (b & b' & _ & _ & _ & C4 & _). destruct (ga_white _ _ G _ Q) as (_ & c & C & _). congruence.
      - rewrite (mr_id _ _ _ _ _ _ M w Y) in Q. contradiction. }
    constructor.
    + intros a Q. destruct (ga_white _ _ G a Q) as (Y & b & B & CW & P). split; [exact Y|]. eexists. split; [apply (mr_old _ _ _ _ _ _ M a b Y B)|].
      rewrite (mr_gc _ _ _ _ _ _ M). auto.
    + rewrite (mr_roots _ _ _ _ _ _ M). intros v J. apply in_map_iff in J as (w & <- & J). apply FA; [now apply (ga_roots _ _ G)|now apply (mr_moved_roots _ _ _ _ _ _ M)].
    + rewrite (mr_globals _ _ _ _ _ _ M). exact (ga_globals _ _ G).
    + intros a b' v B NA T J. destruct (mr_cases young_start young_end outside s s' f M a b' B) as (Y & [(b & B0 & CB & TB & FBB)|(w & b & N & Yw & FW & C)]).
      * destruct (mr_fields_old young_start young_end grow_ok outside s s' f M a b b' v Y B0 B ltac:(unfold Weak_tag, No_scan_tag in *; lia) J) as (w & -> & J' & MV).
        apply FA; [|exact MV]. apply (ga_fields _ _ G a b w); auto. lia.
      * pose proof C as (C1 & C2 & C3 & C4 & C5 & C6 & C7). destruct (mr_fields_new young_start young_end grow_ok outside s s' f M w b b' v Yw C ltac:(lia) J) as (x & -> & J' & MV).
        apply FA; [|exact MV]. apply (ga_fields _ _ G w b x); auto; [|lia]. intros Q. destruct (ga_white _ _ G _ Q) as (Q1 & _). congruence.
  - (* marking *)
    destruct (mark_ok _ _ grow_ok free_size outside ZO FB s I) as (s2 & E & _ & R & D & P); auto. assert (s2 = s') as -> by congruence. destruct G. constructor.
    + intros a Q. destruct (ga_white0 a Q) as (Y & b & B & CW & _). split; [exact Y|]. destruct (rc_fw _ _ _ _ R a b B) as (b' & B' & _). exists b'. split; [exact B'|]. split.
      * destruct (color_eqb_spec (col b') White) as [K|K]; [exact K|]. exfalso. destruct (D a b b' B B' CW K) as (v & c & V & T & J & CG).
        apply (ga_fields0 v c a); auto. intros QV. destruct (ga_white0 v QV) as (_ & c2 & C2 & C3 & _). congruence.
      * intros NP. destruct P as [P|(_ & _ & P)]; [contradiction|]. now apply (P a b).
    + rewrite (rc_roots _ _ _ _ R). auto.
    + rewrite (rc_globals _ _ _ _ R). auto.
    + intros a b' v B NA T J. destruct (rc_bw _ _ _ _ _ _ R B) as (b & B0 & T0 & F0 & _). apply (ga_fields0 a b v); auto; [lia|congruence].
  - (* weak phase *)
    destruct (weak_ok _ _ grow_ok outside ZO s I) as (h & E & _ & HH & WW); auto. rewrite E in H1. injection H1 as <-. destruct G. constructor; cbn [gc set_gc set_hp hp roots globals phase set_phase sweep_hp set_weak]; auto.
    + intros a Q. destruct (ga_white0 a Q) as (Y & b & B & CW & P). split; [exact Y|]. exists b. split; [|split; [exact CW|intros _; apply P; congruence]].
      rewrite HH. destruct (in_dec Z.eq_dec a (weak (gc s))) as [J|J]; [|exact B]. destruct (WW a J) as (b2 & B2 & _ & _ & C2). congruence.
    + intros a b' v B NA T J. rewrite HH in B. destruct (in_dec Z.eq_dec a (weak (gc s))) as [K|K]; [|eauto].
      destruct (WW a K) as (b & B0 & T0 & _). rewrite B0 in B. injection B as <-. cbn in T. unfold Weak_tag, No_scan_tag in *. lia.
  - (* sweep *)
    destruct (sweep_ok _ _ grow_ok free_size outside ZO FB s I) as (r2 & s2 & E & _ & R & GL & BW & K); auto. rewrite E in H1. injection H1 as -> ->. destruct r as [a| |].
    + destruct K as (_ & N & P & O & D). destruct G. constructor; rewrite ?R, ?GL.
      * intros c [Q NE]. destruct (ga_white0 c Q) as (Y & b & B & CW & PP). split; [exact Y|]. exists b. rewrite (O c NE). split; [exact B|]. split; [exact CW|].
        intros _. apply (D c b NE B). apply PP. congruence.
      * intros v J [Q _]. now apply (ga_roots0 v).
      * intros [Q _]. contradiction.
      * intros c b' v B NC T J [Q _]. destruct (BW c b' B) as (b & B0 & T0 & F0). assert (c <> a) as NE by congruence.
        apply (ga_fields0 c b v); auto; [lia|congruence].
    + intros a Q. destruct K as (_ & K & _). destruct (ga_white _ _ G a Q) as (_ & b & B & _ & P). destruct (K a b B) as [K1 _]. specialize (P ltac:(congruence)). lia.
    + destruct K as (P & K & _). destruct G. constructor; rewrite ?R, ?GL; auto.
      * intros c Q. destruct (ga_white0 c Q) as (Y & b & B & CW & PP). split; [exact Y|]. destruct (K c b B CW ltac:(apply PP; congruence)) as [K1 K2]. exists b. auto.
      * intros c b' v B NC T J. destruct (BW c b' B) as (b & B0 & T0 & F0). apply (ga_fields0 c b v); auto; [lia|congruence].
Qed.

(** garbage at the start of a cycle *)
Lemma gar_start s s' : inv s -> step s ECycle s' -> gar (fun a => (exists b, hget (hp s') a = Some b) /\ ~ reach s' a) s'.
Proof.
  intros I H. pose proof I as [[W CL MK RS] RT]. remember ECycle as e eqn:EE. destruct H; try discriminate EE.
  - destruct (_ =? _); discriminate.
  - destruct (sweep_ok _ _ grow_ok free_size outside ZO FB s I) as (r2 & s2 & E & _ & R & GL & BW & K); auto. rewrite E in H1. injection H1 as -> ->. destruct r as [a| |]; try discriminate.
    destruct K as (P & K1 & K2 & K3). constructor.
    + intros a [(b' & B') N]. destruct (BW a b' B') as (b & B & _). split.
      * destruct (is_young a) eqn:Y; [|reflexivity]. rewrite (empty_young _ _ grow_ok outside s a W H Y) in B. discriminate.
      * rewrite K2 in *.
        -- exists b. split; [exact B|]. split; [now apply (K1 a b)|congruence].
        -- intros J. apply N. apply reach_root. now rewrite R.
        -- intros ->. apply N. rewrite <- GL. apply reach_globals.
        -- intros J. apply N. apply reach_root. now rewrite R.
        -- intros ->. apply N. rewrite <- GL. apply reach_globals.
    + intros v J [_ N]. apply N. now apply reach_root.
    + intros [_ N]. apply N. apply reach_globals.
    + intros a b v B NA T J [_ N]. apply NA. split; [eauto|]. intros Q. apply N. eapply reach_field; eauto.
Qed.

(** A weak pointer operation on a garbage object may revive it; any other garbage is freed before the next cycle. *)
Lemma gar_run s evs s' : run s evs s' -> inv s -> forall A : Z -> Prop, gar A s -> In ECycle evs ->
  (forall l1 v l2, evs = l1 ++ EWeak v :: l2 -> A v -> In (EFree v) l1) -> forall a, A a -> In (EFree a) evs.
Proof.
  intros R. induction R as [s|s e s1 l s2 S R IH]; intros I A G C WK a Q; [destruct C|].
  pose proof (step_inv _ _ _ I S) as I1. pose proof (gar_step A s e s1 I G S) as K.
  assert (forall A' : Z -> Prop, (forall x, A' x -> A x /\ e <> EFree x) -> forall l1 v l2, l = l1 ++ EWeak v :: l2 -> A' v -> In (EFree v) l1) as WK'.
  { intros A' AA l1 v l2 E AV. destruct (AA v AV) as [AV1 NE]. destruct (WK (e :: l1) v l2 ltac:(rewrite E; reflexivity) AV1) as [J|J]; [contradiction|exact J]. }
  destruct e as [|b|v|].
  - now elim (K a).
  - destruct C as [C|C]; [discriminate|]. destruct (Z.eq_dec a b) as [->|N]; [now left|]. right.
    apply (IH I1 (fun x => A x /\ x <> b) K C); auto. apply WK'. intros x [X1 X2]. split; [exact X1|congruence].
  - destruct C as [C|C]; [discriminate|]. right. assert (~ A v) as NV by (intros J; destruct (WK [] v l eq_refl J)).
    apply (IH I1 A (K NV) C); auto. apply WK'. intros x X. split; [exact X|discriminate].
  - destruct C as [C|C]; [discriminate|]. right. apply (IH I1 A K C); auto. apply WK'. intros x X. split; [exact X|discriminate].
Qed.
End Run.
