(** Properties C12 to C15: the garbage collector. *)
From Coq Require Import Sorting.Sorted.
From Verif Require Import Base ArrayLib Gc_Model Gc_Spec Gc_Heap Gc_Dark Gc_Inv Gc_Store Gc_Minor Gc_Minor2 Gc_Major Gc_Sweep Gc_Run Gc_Full Gc_Weak Gc_Oracle.

Section Props.
Variables young_start young_end : Z.
Variable alloc_at : st -> Z -> option (Z * list (Z * Z) * list Z).
Variable grow_ok : st -> bool.
Variable free_size : st -> Z -> Z.
Variable outside : Z -> Prop.
Notation is_young := (is_young young_start young_end).
Notation known := (known outside).
Notation step := (step young_start young_end alloc_at grow_ok free_size outside).
Notation run := (run young_start young_end alloc_at grow_ok free_size outside).
Notation possible := (possible young_start young_end alloc_at grow_ok free_size outside).
Notation minor_collection := (minor_collection young_start young_end alloc_at).
Notation gc_full_major := (gc_full_major young_start young_end alloc_at grow_ok free_size).
Hypothesis AL : allocator young_start young_end alloc_at outside.
Hypothesis FB : free_blocks young_start young_end free_size outside.
Hypothesis ZO : zone young_start young_end outside.

Lemma possible_step s e s' : possible s -> step s e s' -> possible s'.
Proof.
  intros (c & n & size & evs & C & N & S & Y & O & R) H. exists c, n, size, (evs ++ [e]). do 5 (split; [assumption|]).
  eapply run_app; [exact R|]. econstructor; [exact H|constructor].
Qed.

(** *** C12 *)
(** [isomorphic f s s']: [f] takes the graph of reachable objects in [s] to that in [s']: the roots
    correspond, distinct objects stay distinct, each object keeps its tag, size and contents, with the
    values in its fields replaced by what [f] makes of them, and nothing else is reachable. *)
Record isomorphic (f : Z -> Z) (s s' : st) : Prop := {
  iso_roots : roots s' = map f (roots s);
  iso_globals : globals s' = f (globals s);
  iso_atom : forall v, hget (hp s) v = None -> reach s v -> f v = v;
  iso_block : forall v b, reach s v -> hget (hp s) v = Some b -> exists b', hget (hp s') (f v) = Some b' /\ tag b' = tag b /\
    fs b' = if tag b <=? Weak_tag then map f (fs b) else fs b;
  iso_inj : forall v w, reach s v -> reach s w -> f v = f w -> v = w;
  iso_reach : forall w, reach s' w <-> exists v, reach s v /\ w = f v
}.

Lemma minor_moved s s' f v : inv young_start young_end outside s -> minor_result young_start young_end outside s s' f -> reach s v -> moved young_start young_end s s' f v.
Proof.
  intros I M R. induction R as [v J| |a b v R IH B T J].
  - now apply (mr_moved_roots _ _ _ _ _ _ M).
  - apply (mr_glob _ _ outside s s' f I M).
  - destruct (is_young a) eqn:Y.
    + assert (Gc_Minor.yb young_start young_end a = true) as YB.
      { pose proof (mr_yb young_start young_end outside ZO s I a b B) as K. unfold Gc_Inv.yb in K. unfold Gc_Minor.yb. rewrite K. exact Y. }
      destruct (IH YB) as (b0 & b' & C). pose proof C as (C1 & _). assert (b0 = b) as -> by congruence. exact (mr_moved_new _ _ _ _ _ _ M a b b' v Y C T J).
    + apply (mr_moved_old _ _ _ _ _ _ M a b v Y B); [unfold Weak_tag, No_scan_tag in *; lia|exact J].
Qed.

(** A minor collection keeps the reachable graph, leaves no reachable object in the minor heap, and
    empties the table of remembered pointers. *)
Theorem C12_minor_preserves s fuel s' : possible s -> minor_collection fuel s = Ret s' ->
  exists f, isomorphic f s s' /\
    (forall v, is_young v = false -> f v = v) /\
    (forall w b, hget (hp s') w = Some b -> is_young w = false) /\
    rt (tab s') = [] /\ young_ptr s' = young_start.
Proof.
  intros P E. pose proof (possible_inv _ _ _ _ _ _ AL FB ZO s P) as I. destruct (minor_ret _ _ alloc_at grow_ok outside AL ZO s I) as [_ K]. destruct (K fuel s' E) as (f & M).
  pose proof (minor_inv _ _ grow_ok outside ZO s s' f I M) as I'.
  pose proof (c_wf _ _ _ _ (i_core _ _ _ _ I)) as W. pose proof (c_closed _ _ _ _ (i_core _ _ _ _ I)) as CL. pose proof (c_wf _ _ _ _ (i_core _ _ _ _ I')) as W'.
  assert (forall v, is_young v = false -> f v = v) as FO.
  { intros v Y. apply (mr_id _ _ _ _ _ _ M). unfold Gc_Minor.yb. rewrite Y. apply andb_false_r. }
  assert (forall v, hget (hp s) v = None -> reach s v -> f v = v) as FN.
  { intros v N R. apply (mr_id _ _ _ _ _ _ M). destruct (Gc_Minor.yb young_start young_end v) eqn:Y; [|reflexivity].
    destruct (minor_moved s s' f v I M R Y) as (b & b' & C1 & _). congruence. }
  assert (forall v b, reach s v -> hget (hp s) v = Some b -> exists b', hget (hp s') (f v) = Some b' /\ tag b' = tag b /\
    fs b' = (if tag b <=? Weak_tag then map f (fs b) else fs b) /\ (is_young v = true -> hget (hp s) (f v) = None)) as BL.
  { intros v b R B. destruct (is_young v) eqn:Y.
    - assert (Gc_Minor.yb young_start young_end v = true) as YB.
      { pose proof (mr_yb young_start young_end outside ZO s I v b B) as Q. unfold Gc_Inv.yb in Q. unfold Gc_Minor.yb. rewrite Q. exact Y. }
      destruct (minor_moved s s' f v I M R YB) as (b0 & b' & C1 & C2 & C3 & C4 & C5 & C6 & C7). assert (b0 = b) as -> by congruence. exists b'. split; [exact C2|]. split; [exact C5|].
      split; [|auto]. rewrite C7. destruct (w_young _ _ _ _ W v b B Y) as (_ & _ & _ & NW & _). unfold Weak_tag, No_scan_tag in *.
      destruct (Z.ltb_spec (tag b) 251), (Z.leb_spec (tag b) 251); try reflexivity; lia.
    - rewrite (FO v Y). eexists. split; [apply (mr_old _ _ _ _ _ _ M v b Y B)|]. cbn [tag fs]. repeat split. discriminate. }
  assert (forall v, reach s v -> hget (hp s) v = None -> Z.odd v = true \/ outside v) as ATOM.
  { intros v R N. destruct (reach_good _ _ outside ZO s v W CL R) as [Q|[Q|(b & B & _)]]; auto. congruence. }
  exists f. split; [|split; [exact FO|split; [|split]]].
  - constructor.
    + apply M.
    + rewrite (mr_globals _ _ _ _ _ _ M). symmetry. apply (mr_glob _ _ outside s s' f I M).
    + exact FN.
    + intros v b R B. destruct (BL v b R B) as (b' & Q1 & Q2 & Q3 & _). eauto.
    + assert (forall v w, reach s v -> reach s w -> f v = f w -> is_young v = true -> hget (hp s) v <> None -> v = w) as K1.
      { intros v w Rv Rw F Y NV. destruct (hget (hp s) v) as [b|] eqn:B; [|congruence]. destruct (BL v b Rv B) as (b' & B' & _ & _ & NF). specialize (NF Y).
        destruct (hget (hp s) w) as [c|] eqn:C.
        - destruct (is_young w) eqn:Yw.
          + assert (forall x d, reach s x -> hget (hp s) x = Some d -> is_young x = true -> exists d', copied young_start young_end s s' f x d d') as CP.
            { intros x d Rx D Yx. assert (Gc_Minor.yb young_start young_end x = true) as YB.
              { pose proof (mr_yb young_start young_end outside ZO s I x d D) as Q. unfold Gc_Inv.yb in Q. unfold Gc_Minor.yb. rewrite Q. exact Yx. }
              destruct (minor_moved s s' f x I M Rx YB) as (d0 & d' & CC). pose proof CC as (C1 & _). assert (d0 = d) as -> by congruence. eauto. }
            destruct (CP v b Rv B Y) as (b2 & C1). destruct (CP w c Rw C Yw) as (c2 & C2). exact (mr_inj _ _ _ _ _ _ M v w b b2 c c2 Y Yw C1 C2 F).
          + rewrite (FO w Yw) in F. congruence.
        - rewrite (FN w C Rw) in F. subst w. destruct (alloc_even _ _ outside ZO s' (f v) b' W' B') as [E1 E2].
          destruct (ATOM (f v) Rw C) as [Q|Q]; [rewrite odd_even, E1 in Q; discriminate|contradiction]. }
      assert (forall v, reach s v -> (is_young v = true /\ hget (hp s) v <> None) \/ f v = v) as CASES.
      { intros v R. destruct (hget (hp s) v) as [b|] eqn:B; [|right; auto]. destruct (is_young v) eqn:Y; [left; split; [reflexivity|congruence]|right; auto]. }
      intros v w Rv Rw F. destruct (CASES v Rv) as [[Y N]|Q]; [now apply K1|]. destruct (CASES w Rw) as [[Y N]|Q2]; [symmetry; now apply K1|]. congruence.
    + intros w. split.
      * intros R. induction R as [w J| |a b' w R IH B T J].
        -- rewrite (mr_roots _ _ _ _ _ _ M) in J. apply in_map_iff in J as (v & <- & J). exists v. split; [now apply reach_root|reflexivity].
        -- exists (globals s). split; [apply reach_globals|]. rewrite (mr_globals _ _ _ _ _ _ M). symmetry. apply (mr_glob _ _ outside s s' f I M).
        -- destruct IH as (v & Rv & ->). destruct (hget (hp s) v) as [b|] eqn:B0.
           ++ destruct (BL v b Rv B0) as (b2 & B2 & T2 & F2 & _). assert (b2 = b') as -> by congruence. rewrite F2 in J.
              replace (tag b <=? Weak_tag) with true in J by (unfold Weak_tag, No_scan_tag in *; lia). apply in_map_iff in J as (x & <- & J). exists x. split; [|reflexivity].
              eapply reach_field; eauto. lia.
           ++ exfalso. rewrite (FN v B0 Rv) in B. destruct (alloc_even _ _ outside ZO s' v b' W' B) as [E1 E2].
              destruct (ATOM v Rv B0) as [Q|Q]; [rewrite odd_even, E1 in Q; discriminate|contradiction].
      * intros (v & R & ->). induction R as [v J| |a b v R IH B T J].
        -- apply reach_root. rewrite (mr_roots _ _ _ _ _ _ M). now apply in_map.
        -- destruct (mr_glob _ _ outside s s' f I M) as [-> _]. rewrite <- (mr_globals _ _ _ _ _ _ M). apply reach_globals.
        -- destruct (BL a b R B) as (b' & B' & T' & F' & _). apply (reach_field s' (f a) b' (f v) IH B'); [lia|]. rewrite F'.
           replace (tag b <=? Weak_tag) with true by (unfold Weak_tag, No_scan_tag in *; lia). now apply in_map.
  - intros w b B. destruct (is_young w) eqn:Y; [|reflexivity]. rewrite (mr_none _ _ _ _ _ _ M w Y) in B. discriminate.
  - now rewrite (mr_tab _ _ _ _ _ _ M).
  - apply M.
Qed.
(** It never fails but for lack of memory. *)
Theorem C12_minor_total s : possible s -> exists n, forall fuel, (n <= fuel)%nat ->
  minor_collection fuel s = Raise FailExn \/ exists s', minor_collection fuel s = Ret s'.
Proof.
  intros P. pose proof (possible_inv _ _ _ _ _ _ AL FB ZO s P) as I. destruct (minor_ret _ _ alloc_at grow_ok outside AL ZO s I) as [K _].
  eexists (S _). intros fuel F. destruct (K fuel F) as [Q|(s' & f & Q & _)]; eauto.
Qed.

(** *** C13 *)
(** Whatever the program has done, each field of an old block that points into the minor heap is recorded. *)
Theorem C13_recorded s a b i v : possible s -> hget (hp s) a = Some b -> is_young a = false -> tag b <= Weak_tag ->
  zget (fs b) i = Some v -> Z.even v = true -> is_young v = true -> In (a, i) (rt (tab s)).
Proof.
  intros P B Y T G E V. pose proof (possible_inv _ _ _ _ _ _ AL FB ZO s P) as I. apply (r_all _ _ _ (i_rt _ _ _ _ I) a b i v Y B T G).
  unfold Gc_Inv.yb, is_block. now rewrite E, V.
Qed.
(** Assignments by programs are never refused and never write outside the tables of the collector. *)
Theorem C13_modify_defined s a b i v : possible s -> reach s a -> hget (hp s) a = Some b -> tag b <= Weak_tag -> 0 <= i < zlen (fs b) -> known s v ->
  exists s' b', modify young_start young_end grow_ok a i v s = Ret s' /\ hget (hp s') a = Some b' /\ tag b' = tag b /\ zset (fs b) i v = Some (fs b') /\
    zlen (rt (tab s')) < rt_size (tab s') + rt_reserve (tab s').
Proof.
  intros P R B T G K. pose proof (possible_inv _ _ _ _ _ _ AL FB ZO s P) as I.
  destruct (modify_ok _ _ grow_ok outside ZO s a b i v I R B T G K) as (s' & l & E & I' & Z1 & _ & _ & _ & _ & _ & _ & BW & FW).
  destruct (FW a b B) as (b' & B' & T' & F1 & F2). exists s', b'. split; [exact E|]. split; [exact B'|]. split; [exact T'|]. split; [rewrite (F2 eq_refl); exact Z1|].
  destruct (r_cap _ _ _ (i_rt _ _ _ _ I')) as (Q1 & Q2 & Q3 & Q4). lia.
Qed.

(** *** C14 *)
(** In every state that can be, whatever pointer is reachable points to an allocated block. *)
Theorem C14_reachable_allocated s v : possible s -> reach s v -> Z.odd v = true \/ outside v \/ exists b, hget (hp s) v = Some b.
Proof.
  intros P R. pose proof (possible_inv _ _ _ _ _ _ AL FB ZO s P) as [[W CL _ _] _].
  destruct (reach_good _ _ outside ZO s v W CL R) as [Q|[Q|(b & B & _)]]; eauto.
Qed.
(** Only unreachable blocks are freed. *)
Theorem C14_frees_garbage_only s a s' : possible s -> step s (EFree a) s' -> ~ reach s a.
Proof.
  intros P S R. pose proof (possible_inv _ _ _ _ _ _ AL FB ZO s P) as I. pose proof I as [[W CL _ _] _]. remember (EFree a) as e eqn:EE. destruct S; try discriminate EE.
  - destruct (_ =? _); discriminate.
  - destruct (sweep_ok _ _ grow_ok free_size outside ZO FB s I) as (r2 & s2 & E & I2 & _ & _ & _ & K); auto. assert (r2 = r /\ s2 = s') as [-> ->] by (split; congruence).
    destruct r as [c| |]; try discriminate. injection EE as ->. destruct K as (NS & _). apply NS.
    destruct (reach_good _ _ outside ZO s a W CL R) as [Q|[Q|Q]]; [| |exact Q]; exfalso.
    + unfold sweep_step in E. destruct (_ <? _).
      * destruct (hget (hp s) (sweep_hp (gc s) + 8)) as [b|] eqn:B; [|discriminate]. destruct (col b); try discriminate. assert (a = sweep_hp (gc s) + 8) as -> by congruence.
        destruct (alloc_even _ _ outside ZO s _ b W B) as [E1 _]. rewrite odd_even, E1 in Q. discriminate.
      * destruct (chunk_after _ _) as [[c m]|]; [discriminate|]. destruct (start_cycle _ _) as [x| | |]; discriminate.
    + unfold sweep_step in E. destruct (_ <? _).
      * destruct (hget (hp s) (sweep_hp (gc s) + 8)) as [b|] eqn:B; [|discriminate]. destruct (col b); try discriminate. assert (a = sweep_hp (gc s) + 8) as -> by congruence.
        destruct (alloc_even _ _ outside ZO s _ b W B) as [_ E2]. contradiction.
      * destruct (chunk_after _ _) as [[c m]|]; [discriminate|]. destruct (start_cycle _ _) as [x| | |]; discriminate.
Qed.
(** A step of the major collector: [mark_step], [weak_phase] or [sweep_step], as the phase has it. *)
Definition collector_step (s : st) : outcome st :=
  match phase (gc s) with
  | Phase_mark => mark_step grow_ok free_size s
  | Phase_weak => weak_phase s
  | Phase_sweep => do (_, s) <- sweep_step grow_ok free_size s; Ret s
  end.
(** It is always defined, and leaves the reachable blocks and their contents alone (weak arrays keep tag and size only: C15). *)
Theorem C14_collector_keeps s : possible s -> young_ptr s = young_start ->
  exists s', collector_step s = Ret s' /\ possible s' /\ young_ptr s' = young_start /\ roots s' = roots s /\ globals s' = globals s /\ (forall v, reach s' v <-> reach s v) /\
    forall a b, reach s a -> hget (hp s) a = Some b -> exists b', hget (hp s') a = Some b' /\ tag b' = tag b /\ (tag b <> Weak_tag -> fs b' = fs b).
Proof.
  intros P ST. pose proof (possible_inv _ _ _ _ _ _ AL FB ZO s P) as I.
  assert (forall s' e, step s e s' -> crun young_start young_end alloc_at grow_ok free_size outside s [e] s' -> possible s' /\ young_ptr s' = young_start /\ roots s' = roots s /\ globals s' = globals s /\ (forall v, reach s' v <-> reach s v) /\
    forall a b, reach s a -> hget (hp s) a = Some b -> exists b', hget (hp s') a = Some b' /\ tag b' = tag b /\ (tag b <> Weak_tag -> fs b' = fs b)) as K.
  { intros s' e S C. split; [eapply possible_step; eauto|]. split; [rewrite (cr_ptr _ _ _ _ _ _ _ _ _ C); exact ST|]. split; [apply C|]. split; [apply C|]. split; [intros v; apply (cr_reach _ _ _ _ _ _ _ _ _ _ C)|].
    intros a b R B. destruct (cr_fw _ _ _ _ _ _ _ _ _ C a b R B) as (b' & B'). destruct (cr_bw _ _ _ _ _ _ _ _ _ C a b' B') as (b0 & B0 & T0 & F0). assert (b0 = b) as -> by congruence. eauto. }
  unfold collector_step. destruct (phase (gc s)) eqn:PH.
  - destruct (mark_ok _ _ grow_ok free_size outside ZO FB s I ST PH) as (s' & E & _). exists s'. split; [exact E|]. apply (K s' ETau).
    + now apply step_mark.
    + now apply (crun_mark _ _ alloc_at _ _ outside FB ZO).
  - destruct (weak_ok _ _ grow_ok outside ZO s I ST PH) as (h & E & _). eexists. split; [exact E|]. apply (K _ ETau).
    + now apply step_weak.
    + now apply (crun_weak _ _ alloc_at grow_ok free_size outside ZO s _ I ST PH E).
  - destruct (sweep_ok _ _ grow_ok free_size outside ZO FB s I ST PH) as (r & s' & E & _). exists s'. rewrite E. split; [reflexivity|]. eapply (K s').
    + apply step_sweep; eauto.
    + eapply (crun_sweep _ _ alloc_at _ _ outside FB ZO); eauto.
Qed.
(** A block unreachable when a cycle begins has been freed when the next one begins, whatever the program
    does in between; unless weak pointers are used to get at garbage (each such use is an event [EWeak]). *)
Theorem C14_garbage_freed s s1 evs s2 a b : possible s -> step s ECycle s1 -> run s1 evs s2 -> In ECycle evs ->
  (forall l1 v l2, evs = l1 ++ EWeak v :: l2 -> reach s1 v \/ hget (hp s1) v = None \/ In (EFree v) l1) ->
  hget (hp s1) a = Some b -> ~ reach s1 a -> In (EFree a) evs.
Proof.
  intros P S R C WK B N. pose proof (possible_inv _ _ _ _ _ _ AL FB ZO s P) as I. pose proof (step_inv _ _ _ _ _ _ AL FB ZO _ _ _ I S) as I1.
  apply (gar_run _ _ alloc_at grow_ok free_size outside AL FB ZO s1 evs s2 R I1 _ (gar_start _ _ alloc_at grow_ok free_size outside FB ZO s s1 I S) C).
  - intros l1 v l2 E [(c & Q) NR]. destruct (WK l1 v l2 E) as [K|[K|K]]; [contradiction|congruence|exact K].
  - split; [eauto|exact N].
Qed.
(** gc_full_major ends (or memory is exhausted while the minor heap is emptied); afterwards no unreachable block is left. *)
Theorem C14_full_collection s n : possible s -> exists k, forall fuel, (k <= fuel)%nat ->
  gc_full_major fuel n s = Raise FailExn \/
  exists s' f, gc_full_major fuel n s = Ret s' /\
    (forall a, ~ reach s' a -> hget (hp s') a = None) /\
    roots s' = map f (roots s) /\ (forall w, reach s' w <-> exists v, reach s v /\ w = f v) /\
    (forall v b, reach s v -> hget (hp s) v = Some b -> tag b <> Weak_tag -> exists b', hget (hp s') (f v) = Some b' /\ tag b' = tag b /\
      fs b' = if tag b <=? Weak_tag then map f (fs b) else fs b) /\
    (forall v w, reach s v -> reach s w -> f v = f w -> v = w).
Proof.
  intros P. destruct (C12_minor_total s P) as (k0 & T).
  destruct (T k0 (Nat.le_refl _)) as [E0|(s0 & E0)].
  - exists k0. intros fuel F. left. unfold Gc_Model.gc_full_major. replace (minor_collection fuel s) with (minor_collection k0 s); [now rewrite E0|].
    symmetry. rewrite E0. pose proof (minor_mono young_start young_end alloc_at k0 s ltac:(congruence) (fuel - k0)) as Q. rewrite E0 in Q.
    replace (fuel - k0 + k0)%nat with fuel in Q by lia. exact Q.
  - destruct (C12_minor_preserves s k0 s0 P E0) as (f & IS & _ & _ & _ & ST).
    assert (possible s0) as P0 by (eapply possible_step; [exact P|]; eapply step_minor; eauto).
    pose proof (possible_inv _ _ _ _ _ _ AL FB ZO s0 P0) as I0.
    destruct (slice_ends _ _ alloc_at grow_ok free_size outside FB ZO n s0 I0 ST) as (s1 & e1 & E1 & C1).
    pose proof (crun_inv _ _ _ _ _ _ AL FB ZO _ _ _ I0 C1) as I1. pose proof (crun_started _ _ _ _ _ _ _ _ _ ST C1) as ST1.
    destruct (finish_ends _ _ alloc_at grow_ok free_size outside AL FB ZO s1 I1 ST1) as (k1 & s2 & E2 & (e2 & C2) & _).
    pose proof (crun_inv _ _ _ _ _ _ AL FB ZO _ _ _ I1 C2) as I2. pose proof (crun_started _ _ _ _ _ _ _ _ _ ST1 C2) as ST2.
    destruct (finish_ends _ _ alloc_at grow_ok free_size outside AL FB ZO s2 I2 ST2) as (k2 & s3 & E3 & (e3 & C3) & _).
    exists (k0 + k1 + k2)%nat. intros fuel F. right. exists s3, f. split.
    { unfold Gc_Model.gc_full_major. pose proof (minor_mono young_start young_end alloc_at k0 s ltac:(congruence) (fuel - k0)) as Q. rewrite E0 in Q.
      replace (fuel - k0 + k0)%nat with fuel in Q by lia. rewrite Q. cbn [bind]. rewrite E1. cbn [bind]. rewrite E2 by lia. cbn [bind]. apply E3. lia. }
    pose proof (crun_trans _ _ _ _ _ _ _ _ _ _ _ (crun_trans _ _ _ _ _ _ _ _ _ _ _ C1 C2) C3) as CA.
    assert (forall w, reach s3 w <-> reach s0 w) as RR by (intros w; apply (cr_reach _ _ _ _ _ _ _ _ _ _ CA)).
    split; [|split; [rewrite (cr_roots _ _ _ _ _ _ _ _ _ CA); apply IS|split; [intros w; rewrite RR; apply IS|split; [|apply IS]]]].
    + intros a N. apply (two_cycles _ _ alloc_at grow_ok free_size outside AL FB ZO s1 e2 s2 e3 s3 I1 C2 C3). intros Q. apply N.
      apply RR. now apply (cr_reach _ _ _ _ _ _ _ _ _ _ C1).
    + intros v b R B NW. destruct (iso_block _ _ _ IS v b R B) as (b1 & B1 & T1 & F1).
      assert (reach s0 (f v)) as R1 by (apply (iso_reach _ _ _ IS); eauto). destruct (cr_fw _ _ _ _ _ _ _ _ _ CA _ _ R1 B1) as (b' & B').
      destruct (cr_bw _ _ _ _ _ _ _ _ _ CA _ _ B') as (b2 & B2 & T2 & F2). assert (b2 = b1) as -> by congruence. exists b'. split; [exact B'|]. split; [congruence|].
      rewrite F2 by congruence. exact F1.
Qed.

(** *** C15 *)
(** Asking about a weak pointer and following it are always defined; what is yielded is the value
    stored, it points to no freed block, and from then on it is reachable. *)
Theorem C15_weak_valid s a b i : possible s -> reach s a -> hget (hp s) a = Some b -> tag b = Weak_tag -> 0 <= i < zlen (fs b) ->
  exists v d, zget (fs b) i = Some v /\ weak_isdead a i s = Ret d /\
    if d then weak_sub grow_ok a i s = Raise FailExn
    else exists s', weak_sub grow_ok a i s = Ret (v, s') /\ possible (set_roots s' (v :: roots s')) /\
      (Z.odd v = true \/ outside v \/ exists c c', hget (hp s) v = Some c /\ hget (hp s') v = Some c' /\ tag c' = tag c /\ fs c' = fs c).
Proof.
  intros P R B T G. pose proof (possible_inv _ _ _ _ _ _ AL FB ZO s P) as I.
  destruct (zget_some (fs b) i G) as (v & V). exists v.
  destruct (weak_sub_ok _ _ grow_ok outside ZO s a b i I R B T G) as [E|(v2 & s' & E & I' & V2 & GD & NZ & GR & _)].
  - exists true. unfold weak_sub, weak_isdead, rd in *. cbn [read] in *. rewrite B, V in *. cbn [bind] in *. destruct (isdead v s) as [d| | |] eqn:D; try discriminate E.
    + destruct d; [auto|]. exfalso. cbn [bind] in E. destruct (phase (gc s)) eqn:PH; try discriminate E.
      destruct (weak_value _ _ outside ZO s a b v I R B T (zget_In _ _ _ V)) as [_ [GD|[Q _]]]; [|congruence].
      pose proof I as [[W _ MK _] _]. destruct (darken grow_ok v s) as [x| | |] eqn:DK; try discriminate E.
      unfold darken in DK. destruct (_ && _) eqn:BH; [|discriminate]. destruct (hget (hp s) v) as [c|]; [|discriminate]. destruct (color_eqb _ _); [|discriminate].
      unfold push_gray in DK. destruct (_ <? _); discriminate.
    + exfalso. unfold isdead in D. destruct (_ =? 0); [discriminate|]. destruct (phase (gc s)); try discriminate. destruct (_ && _); [|discriminate]. destruct (hget (hp s) v); discriminate.
  - assert (v2 = v) as -> by congruence. exists false. split; [exact V|]. split.
    + unfold weak_sub, weak_isdead in *. destruct (rd s (LField a i)) as [x| | |]; try discriminate E. cbn [bind] in *. destruct (isdead x s) as [d| | |]; try discriminate E. destruct d; [discriminate E|reflexivity].
    + exists s'. split; [exact E|]. split; [eapply possible_step; [exact P|]; eapply step_weak_sub; eauto|]. destruct GD as [Q|[Q|(c & C & _)]]; auto. right. right.
      destruct (g_fw _ _ _ _ GR v c C) as (c' & C' & T' & F' & _). exists c, c'. auto.
Qed.

(** The full claim, that a weak pointer whose target is reachable is never reported dead nor cleared, is
    refuted below ([C15_live_refuted]).  It holds when the heap is never extended below its first chunk
    (missing here: the extensions that do so during the weak phase). *)
Definition grows_upwards : Prop := forall s w r cs junk, alloc_at s w = Some (r, cs, junk) -> chunks s <> [] -> hd_error cs = hd_error (chunks s).
Theorem C15_live_partial s a b i v : grows_upwards -> possible s -> reach s a -> hget (hp s) a = Some b -> tag b = Weak_tag ->
  zget (fs b) i = Some v -> reach s v -> v <> 0 ->
  weak_isdead a i s = Ret false /\
  (forall s', young_ptr s = young_start -> collector_step s = Ret s' -> exists b', hget (hp s') a = Some b' /\ zget (fs b') i = Some v).
Proof.
  intros UP P R B T V RV NZ. destruct (possible_start _ _ alloc_at grow_ok free_size outside AL FB ZO UP s P) as [I A].
  assert (phase (gc s) = Phase_weak -> is_block v && is_in_heap s v = true -> exists c, hget (hp s) v = Some c /\ color_eqb (col c) White = false) as BLACK.
  { intros PH Q. pose proof I as [[W CL _ _] _]. destruct (some_darkenable _ _ outside s v W (good_some _ _ outside s v (reach_good _ _ outside ZO s v W CL RV)) Q) as (c & C).
    exists c. split; [exact C|]. destruct (is_young v) eqn:Y.
    - destruct (w_young _ _ _ _ W v c C Y) as (_ & K & _). now rewrite K.
    - now rewrite (weak_black _ _ alloc_at grow_ok outside ZO UP s v c I A PH RV C Y). }
  split.
  - unfold weak_isdead, rd. cbn [read]. rewrite B, V. cbn [bind]. unfold isdead. destruct (Z.eqb_spec v 0); [contradiction|]. destruct (phase (gc s)) eqn:PH; try reflexivity.
    destruct (is_block v && is_in_heap s v) eqn:Q; [|reflexivity]. destruct (BLACK eq_refl eq_refl) as (c & -> & ->). reflexivity.
  - intros s' ST E. unfold collector_step in E. destruct (phase (gc s)) eqn:PH.
    + destruct (mark_ok _ _ grow_ok free_size outside ZO FB s I ST PH) as (s2 & E2 & _ & RC & _). assert (s2 = s') as -> by congruence.
      destruct (rc_fw _ _ _ _ RC a b B) as (b' & B' & _ & F' & _). exists b'. rewrite F'. auto.
    + destruct (weak_ok _ _ grow_ok outside ZO s I ST PH) as (h & E2 & _ & HH & _). rewrite E in E2. injection E2 as ->. cbn [hp set_gc set_hp]. rewrite HH, B.
      destruct (in_dec _ _ _); [|eauto]. cbn [option_map]. eexists. split; [reflexivity|]. cbn [fs set_fs]. unfold zget in *. destruct (i <? 0); [discriminate|].
      rewrite nth_error_map, V. cbn. f_equal. unfold clr. destruct (is_block v && is_in_heap s v) eqn:Q; [|reflexivity]. destruct (BLACK eq_refl eq_refl) as (c & -> & ->). reflexivity.
    + destruct (sweep_ok _ _ grow_ok free_size outside ZO FB s I ST PH) as (r & s2 & E2 & _ & _ & _ & BW & K). rewrite E2 in E. cbn [bind] in E. assert (s2 = s') as -> by congruence.
      assert (exists b', hget (hp s') a = Some b') as (b' & B').
      { pose proof (crun_sweep _ _ alloc_at _ _ outside FB ZO s r s' I ST PH E2) as C. apply (cr_fw _ _ _ _ _ _ _ _ _ C a b R B). }
      destruct (BW a b' B') as (b0 & B0 & _ & F0). exists b'. split; [exact B'|]. rewrite F0. assert (b0 = b) as -> by congruence. exact V.
Qed.

(** running the collector for [n] steps *)
Definition event_step (s : st) : outcome (event * st) :=
  match phase (gc s) with
  | Phase_mark => do s <- mark_step grow_ok free_size s; Ret (ETau, s)
  | Phase_weak => do s <- weak_phase s; Ret (ETau, s)
  | Phase_sweep => do (r, s) <- sweep_step grow_ok free_size s; Ret (match r with SwFree a => EFree a | SwCycle => ECycle | SwOther => ETau end, s)
  end.
Fixpoint drive (n : nat) (s : st) : list event * st :=
  match n with
  | O => ([], s)
  | S n => match event_step s with Ret (e, s') => let (l, s2) := drive n s' in (e :: l, s2) | _ => ([], s) end
  end.
Lemma event_step_step s e s' : young_ptr s = young_start -> event_step s = Ret (e, s') -> step s e s'.
Proof.
  intros ST. unfold event_step. destruct (phase (gc s)) eqn:P.
  - destruct (mark_step grow_ok free_size s) eqn:E; try discriminate. cbn. intros Q. injection Q as <- <-. now apply step_mark.
  - destruct (weak_phase s) eqn:E; try discriminate. cbn. intros Q. injection Q as <- <-. now apply step_weak.
  - destruct (sweep_step grow_ok free_size s) as [[r s1]| | |] eqn:E; try discriminate. cbn. intros Q. injection Q as <- <-. now apply step_sweep.
Qed.
Lemma event_step_same s e s' : event_step s = Ret (e, s') -> collector_step s = Ret s'.
Proof.
  unfold event_step, collector_step. destruct (phase (gc s)).
  - destruct (mark_step grow_ok free_size s); try discriminate. cbn. congruence.
  - destruct (weak_phase s); try discriminate. cbn. congruence.
  - destruct (sweep_step grow_ok free_size s) as [[r s1]| | |]; try discriminate. cbn. congruence.
Qed.
Lemma drive_run n : forall s, possible s -> young_ptr s = young_start ->
  run s (fst (drive n s)) (snd (drive n s)) /\ possible (snd (drive n s)) /\ young_ptr (snd (drive n s)) = young_start.
Proof.
  induction n as [|n IH]; intros s P ST; cbn [drive]; [split; [constructor|auto]|].
  destruct (event_step s) as [[e s1]| | |] eqn:E; [|split; [constructor|auto]..].
  pose proof (event_step_step s e s1 ST E) as S. apply event_step_same in E. destruct (C14_collector_keeps s P ST) as (s2 & E2 & P2 & ST2 & _). assert (s2 = s1) as -> by congruence.
  specialize (IH s1 P2 ST2). destruct (drive n s1) as [l s3]. cbn [fst snd] in *. destruct IH as (R & Q). split; [econstructor; eauto|exact Q].
Qed.
End Props.
Print Assumptions C12_minor_preserves.
Print Assumptions C12_minor_total.
Print Assumptions C13_recorded.
Print Assumptions C13_modify_defined.
Print Assumptions C14_reachable_allocated.
Print Assumptions C14_frees_garbage_only.
Print Assumptions C14_collector_keeps.
Print Assumptions C14_garbage_freed.
Print Assumptions C14_full_collection.
Print Assumptions C15_weak_valid.
Print Assumptions C15_live_partial.

(** *** Examples *)
Definition val {A} (o : outcome A) (d : A) : A := match o with Ret x => x | _ => d end.
Definition closedb (s : st) (l : list Z) : bool :=
  let mem v := existsb (Z.eqb v) l in
  forallb mem (roots s) && mem (globals s) &&
  forallb (fun e => negb (mem (fst e)) || (No_scan_tag <=? tag (snd e)) || forallb mem (fs (snd e))) (hp s).
Lemma closed_reach s l v : closedb s l = true -> reach s v -> In v l.
Proof.
  intros C. unfold closedb in C. apply andb_prop in C as [C C3]. apply andb_prop in C as [C1 C2]. rewrite forallb_forall in C1, C3.
  assert (forall v, existsb (Z.eqb v) l = true <-> In v l) as M.
  { intros x. rewrite existsb_exists. split; [intros (y & I & Q); apply Z.eqb_eq in Q; now subst|intros I; exists x; split; [exact I|apply Z.eqb_refl]]. }
  assert (forall a b, hget (hp s) a = Some b -> In (a, b) (hp s)) as HI.
  { clear. intros a b. induction (hp s) as [|[x c] h IH]; cbn; [discriminate|]. destruct (Z.eqb_spec x a) as [->|N]; [intros Q; injection Q as ->; auto|auto]. }
  intros R. induction R as [v I| |a b v R IH B T I].
  - apply M. auto.
  - now apply M.
  - apply HI in B. specialize (C3 _ B). cbn [fst snd] in C3. apply orb_prop in C3 as [C3|C3]; [apply orb_prop in C3 as [C3|C3]|].
    + apply M in IH. rewrite IH in C3. discriminate.
    + unfold No_scan_tag in *. lia.
    + rewrite forallb_forall in C3. apply M. auto.
Qed.

Notation up_step := (step ys ye alloc_up always unit_size null_only).
Notation up_possible := (possible ys ye alloc_up always unit_size null_only).
(** an old block, a weak array pointing to it, a young block pointing to the old one and pointed to by it *)
Definition u0 := init_st ys 10000 1 10.
Definition u1 := val (do (r, s) <- alloc_data alloc_up 0 [1] u0; Ret (set_roots s (r :: roots s))) u0.
Definition u2 := val (do (r, s) <- alloc_data alloc_up Weak_tag [10010] u1; Ret (set_roots s (r :: roots s))) u1.
Definition u3 := match alloc_small ye 0 [3; 10010] u2 with Some (r, s) => set_roots s (r :: roots s) | None => u2 end.
Definition u4 := val (modify ys ye always 10010 0 1008 u3) u3.
Definition u5 := val (minor_collection ys ye alloc_up 5 u4) u4.
Lemma u0_possible : up_possible u0.
Proof. exists 10000, 1, 10, []. unfold ys, ye, null_only. repeat split; try lia. constructor. Qed.

Lemma u1_possible : up_possible u1.
Proof.
  eapply possible_step; [exact u0_possible|]. eapply (step_data _ _ _ _ _ _ u0 0 [1] 10010); [reflexivity|lia|unfold Weak_tag; lia| |vm_compute; reflexivity].
  intros _. repeat constructor.
Qed.
Lemma u2_possible : up_possible u2.
Proof.
  eapply possible_step; [exact u1_possible|]. eapply (step_data _ _ _ _ _ _ u1 Weak_tag [10010] 10026); [reflexivity|unfold Weak_tag; lia|reflexivity| |vm_compute; reflexivity].
  intros _. constructor; [|constructor]. split; [|reflexivity]. right. right. apply reach_root. vm_compute; tauto.
Qed.
Lemma u3_possible : up_possible u3.
Proof.
  eapply possible_step; [exact u2_possible|]. eapply (step_small _ _ _ _ _ _ u2 0 [3; 10010] 1008); [reflexivity|lia|discriminate| |vm_compute; reflexivity].
  intros _. constructor; [now left|]. constructor; [|constructor]. right. right. apply reach_root. vm_compute; tauto.
Qed.
Lemma u3_reach : reach u3 10010 /\ reach u3 1008.
Proof. split; apply reach_root; vm_compute; tauto. Qed.
Lemma u4_possible : up_possible u4.
Proof.
  eapply possible_step; [exact u3_possible|]. eapply (step_modify _ _ _ _ _ _ u3 10010 (Blk Black 0 [1]) 0 1 1008);
    [apply u3_reach|reflexivity|cbn; unfold Weak_tag; lia|reflexivity|right; right; apply u3_reach|vm_compute; reflexivity].
Qed.
Lemma u5_minor : minor_collection ys ye alloc_up 5 u4 = Ret u5.
Proof. vm_compute. reflexivity. Qed.
Lemma u5_possible : up_possible u5.
Proof. eapply possible_step; [exact u4_possible|]. eapply step_minor. exact u5_minor. Qed.
Lemma u6_possible : up_possible (set_roots u5 [10026]).
Proof. eapply possible_step; [exact u5_possible|]. apply step_roots. constructor; [|constructor]. right. right. apply reach_root. vm_compute; tauto. Qed.

(** a remembered pointer, a young block reached from an old one and moved *)
Example C12_ex : up_possible u4 /\ minor_collection ys ye alloc_up 5 u4 = Ret u5 /\
  hget (hp u4) 10010 = Some (Blk Black 0 [1008]) /\ hget (hp u4) 1008 = Some (Blk Black 0 [3; 10010]) /\
  hget (hp u5) 10010 = Some (Blk Black 0 [10042]) /\ hget (hp u5) 10042 = Some (Blk Black 0 [3; 10010]).
Proof. split; [exact u4_possible|]. split; [exact u5_minor|]. vm_compute. repeat split. Qed.
Example C13_ex : up_possible u4 /\ hget (hp u4) 10010 = Some (Blk Black 0 [1008]) /\ is_young ys ye 10010 = false /\ is_young ys ye 1008 = true /\
  rt (tab u4) = [(10010, 0)].
Proof. split; [exact u4_possible|]. vm_compute. repeat split. Qed.
Example C13_modify_ex : up_possible u3 /\ reach u3 10010 /\ hget (hp u3) 10010 = Some (Blk Black 0 [1]) /\ known null_only u3 1008.
Proof. split; [exact u3_possible|]. split; [apply u3_reach|]. split; [reflexivity|]. right. right. apply u3_reach. Qed.
Example C14_reach_ex : up_possible u4 /\ reach u4 1008 /\ hget (hp u4) 1008 = Some (Blk Black 0 [3; 10010]).
Proof. split; [exact u4_possible|]. split; [apply reach_root; vm_compute; tauto|vm_compute; reflexivity]. Qed.

Definition u7 := snd (drive always unit_size 9 (set_roots u5 [10026])).
Definition u8 := snd (drive always unit_size 1 u7).
Definition u9 := snd (drive always unit_size 11 u8).
Lemma u7_possible : up_possible u7 /\ young_ptr u7 = ys.
Proof.
  destruct (drive_run ys ye alloc_up always unit_size null_only up_ok ex_free ex_zone 9 (set_roots u5 [10026])) as (_ & P & Y); [exact u6_possible|vm_compute; reflexivity|].
  exact (conj P Y).
Qed.
Lemma u8_step : up_step u7 ECycle u8.
Proof. apply event_step_step; [apply u7_possible|vm_compute; reflexivity]. Qed.
(** two unreachable blocks that point to each other; nothing but the collector runs *)
Example C14_garbage_ex : exists evs, up_possible u7 /\ up_step u7 ECycle u8 /\ run ys ye alloc_up always unit_size null_only u8 evs u9 /\ In ECycle evs /\
  (forall l1 v l2, evs = l1 ++ EWeak v :: l2 -> False) /\
  hget (hp u8) 10010 = Some (Blk White 0 [10042]) /\ hget (hp u8) 10042 = Some (Blk White 0 [3; 10010]) /\ ~ reach u8 10010 /\ ~ reach u8 10042.
Proof.
  exists (fst (drive always unit_size 11 u8)). split; [apply u7_possible|]. split; [exact u8_step|].
  split.
  { destruct (drive_run ys ye alloc_up always unit_size null_only up_ok ex_free ex_zone 11 u8) as (R & _); [eapply possible_step; [apply u7_possible|exact u8_step]|vm_compute; reflexivity|]. exact R. }
  split; [vm_compute; tauto|].
  split. { intros l1 v l2 E. assert (In (EWeak v) (fst (drive always unit_size 11 u8))) as Q by (rewrite E; apply in_app_iff; right; now left). vm_compute in Q. intuition discriminate. }
  split; [vm_compute; reflexivity|]. split; [vm_compute; reflexivity|].
  split; intros R; apply (closed_reach u8 [10026; 0]) in R; try (vm_compute; reflexivity); cbn in R; intuition discriminate.
Qed.
Example C14_free_ex : exists s s', up_possible s /\ up_step s (EFree 10010) s'.
Proof.
  exists (snd (drive always unit_size 5 u8)), (snd (drive always unit_size 6 u8)).
  destruct (drive_run ys ye alloc_up always unit_size null_only up_ok ex_free ex_zone 5 u8) as (_ & P & Y); [eapply possible_step; [apply u7_possible|exact u8_step]|vm_compute; reflexivity|].
  split; [exact P|]. apply event_step_step; [exact Y|vm_compute; reflexivity].
Qed.
Example C14_full_ex : exists s', gc_full_major ys ye alloc_up always unit_size 40 3 (set_roots u4 [10026]) = Ret s' /\
  hget (hp u4) 10010 <> None /\ hget (hp s') 10010 = None /\ hget (hp s') 10026 = Some (Blk Gray Weak_tag [0]).
Proof. eexists. split; [vm_compute; reflexivity|]. split; [vm_compute; discriminate|]. split; vm_compute; reflexivity. Qed.

(** a weak pointer to a live object *)
Example C15_ex : grows_upwards alloc_up /\ up_possible u4 /\ reach u4 10026 /\ hget (hp u4) 10026 = Some (Blk Black Weak_tag [10010]) /\ reach u4 10010 /\
  weak_isdead 10026 0 u4 = Ret false.
Proof.
  split; [exact up_stable|]. split; [exact u4_possible|]. split; [apply reach_root; vm_compute; tauto|]. split; [reflexivity|].
  split; [apply reach_root; vm_compute; tauto|vm_compute; reflexivity].
Qed.

(** *** Refutations *)
Notation dn_step := (step ys ye alloc_down always unit_size null_only).
Notation dn_possible := (possible ys ye alloc_down always unit_size null_only).
Definition d0 := init_st ys 100000 2 10.
Definition d1 := val (do (r, s) <- alloc_data alloc_down Weak_tag [1] d0; Ret (set_roots s (r :: roots s))) d0.
Definition d2 := snd (drive always unit_size 9 d1).
Definition d3 := val (do (r, s) <- alloc_data alloc_down 252 [7] d2; Ret (set_roots s (r :: roots s))) d2.
Definition d4 := val (modify ys ye always 99992 0 99976 d3) d3.
Lemma d4_possible : dn_possible d4.
Proof.
  assert (dn_possible d0) as P0 by (exists 100000, 2, 10, []; unfold ys, ye, null_only; repeat split; try lia; constructor).
  assert (dn_possible d1) as P1.
  { eapply possible_step; [exact P0|]. eapply (step_data _ _ _ _ _ _ d0 Weak_tag [1] 99992); [reflexivity|unfold Weak_tag; lia|reflexivity| |vm_compute; reflexivity]. intros _. repeat constructor. }
  assert (dn_possible d2) as P2.
  { destruct (drive_run ys ye alloc_down always unit_size null_only down_ok ex_free ex_zone 9 d1) as (_ & P & _); [exact P1|vm_compute; reflexivity|]. exact P. }
  assert (dn_possible d3) as P3.
  { eapply possible_step; [exact P2|]. eapply (step_data _ _ _ _ _ _ d2 252 [7] 99976); [reflexivity|lia|discriminate|unfold Weak_tag; lia|vm_compute; reflexivity]. }
  eapply possible_step; [exact P3|]. eapply (step_modify _ _ _ _ _ _ d3 99992 (Blk Black Weak_tag [1]) 0 1 99976);
    [apply reach_root; vm_compute; tauto|vm_compute; reflexivity|cbn; lia|reflexivity|right; right; apply reach_root; vm_compute; tauto|vm_compute; reflexivity].
Qed.
(** During the weak phase an object allocated in a new chunk below the others is white: a weak pointer to
    it is reported dead, and then cleared, although it is reachable. *)
Theorem C15_live_refuted : exists young_start young_end alloc_at grow_ok free_size outside,
  allocator young_start young_end alloc_at outside /\ free_blocks young_start young_end free_size outside /\ zone young_start young_end outside /\
  exists s a b i v, possible young_start young_end alloc_at grow_ok free_size outside s /\ reach s a /\ hget (hp s) a = Some b /\ tag b = Weak_tag /\
    zget (fs b) i = Some v /\ reach s v /\ (exists c, hget (hp s) v = Some c) /\
    weak_isdead a i s = Ret true /\
    exists s' b', young_ptr s = young_start /\ collector_step grow_ok free_size s = Ret s' /\ hget (hp s') a = Some b' /\ zget (fs b') i = Some 0.
Proof.
  exists ys, ye, alloc_down, always, unit_size, null_only. split; [exact down_ok|]. split; [exact ex_free|]. split; [exact ex_zone|].
  exists d4, 99992, (Blk Black Weak_tag [99976]), 0, 99976. split; [exact d4_possible|].
  split; [apply reach_root; vm_compute; tauto|]. split; [vm_compute; reflexivity|]. split; [reflexivity|]. split; [reflexivity|].
  split; [apply reach_root; vm_compute; tauto|]. split; [eexists; vm_compute; reflexivity|]. split; [vm_compute; reflexivity|].
  eexists. eexists. split; [vm_compute; reflexivity|]. split; [vm_compute; reflexivity|]. split; [vm_compute; reflexivity|reflexivity].
Qed.
(** A weak array of 2^31 fields is not looked at in the weak phase (its length is kept in an int): its
    pointers to blocks about to be freed are not cleared. *)
Theorem C15_huge_array_refuted : exists s a b v, phase (gc s) = Phase_weak /\ In a (weak (gc s)) /\ hget (hp s) a = Some b /\ tag b = Weak_tag /\
  zget (fs b) 0 = Some v /\ hget (hp s) v = Some (Blk White 252 [7]) /\ is_in_heap s v = true /\
  exists s1 s2 b', weak_phase s = Ret s1 /\ hget (hp s1) a = Some b' /\ zget (fs b') 0 = Some v /\
    sweep_step always unit_size s1 = Ret (SwFree v, s2).
Proof.
  set (l := 10008 :: repeat 1 (Z.to_nat 2147483647)).
  assert (zlen l = 2147483648) as ZL by (unfold l; rewrite zlen_cons, zlen_repeat; lia).
  set (h := [(10008, Blk White 252 [7]); (20008, Blk Black Weak_tag l)]).
  exists (St [20008] 0 h 1000 (Tab [] 10 256 10) [(10000, 16); (20000, 8 + 8 * 2147483648)] (Gc Phase_weak [] 2048 true 0 10000 10016 [20008] 10000) 0).
  exists 20008, (Blk Black Weak_tag l), 10008. split; [reflexivity|]. split; [now left|]. split; [reflexivity|]. split; [reflexivity|]. split; [reflexivity|]. split; [reflexivity|]. split; [reflexivity|].
  eexists. eexists. exists (Blk Black Weak_tag l). split.
  { unfold weak_phase. cbn [weak gc weak_arrays hp]. replace (hget h 20008) with (Some (Blk Black Weak_tag l)) by reflexivity. cbn [fs]. rewrite ZL.
    assert (forall s, weak_fields s (int_of 2147483648) l = Ret l) as -> by (intros s; reflexivity). cbn [bind weak_arrays]. reflexivity. }
  cbn [hp set_gc set_hp]. split; [rewrite hget_hput; reflexivity|]. split; [reflexivity|].
  unfold sweep_step. cbn [gc set_gc set_hp set_phase set_weak sweep_hp limit chunk phase Z.ltb Z.compare hp].
  replace (10000 + 8) with 10008 by reflexivity. rewrite hget_hput. replace (10008 =? 20008) with false by reflexivity. replace (hget h 10008) with (Some (Blk White 252 [7])) by reflexivity.
  cbn [col]. reflexivity.
Qed.
Print Assumptions C15_live_refuted.
Print Assumptions C15_huge_array_refuted.
