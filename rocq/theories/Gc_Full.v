(** Marking and sweeping come to an end; what a full collection leaves. *)
From Coq Require Import Sorting.Sorted.
From Verif Require Import Base ArrayLib Gc_Model Gc_Spec Gc_Heap Gc_Dark Gc_Inv Gc_Store Gc_Minor Gc_Minor2 Gc_Major Gc_Sweep Gc_Run.

(** ** Measures *)
Definition wt (c : color) : Z := match c with White => 2 | Gray => 1 | _ => 0 end.
Definition load (h : heap) : Z := fold_right (fun e n => wt (col (snd e)) + n) 0 h.
Lemma wt_nonneg c : 0 <= wt c. Proof. destruct c; cbn; lia. Qed.
Lemma load_nonneg h : 0 <= load h.
Proof. induction h as [|e h IH]; [cbn; lia|]. cbn [load fold_right]. fold (load h). pose proof (wt_nonneg (col (snd e))). lia. Qed.
Lemma load_hdel_le h a : load (hdel h a) <= load h.
Proof.
  induction h as [|[x b] h IH]; [apply Z.le_refl|]. rewrite hdel_cons. pose proof (wt_nonneg (col b)). destruct (x =? a); cbn [load fold_right snd] in *; fold (load h) in *; fold (load (hdel h a)) in *; lia.
Qed.
Lemma load_hdel h a b : hget h a = Some b -> load (hdel h a) + wt (col b) <= load h.
Proof.
  induction h as [|[x c] h IH]; intros E; [discriminate|]. cbn [hget] in E. rewrite hdel_cons. destruct (x =? a).
  - injection E as ->. pose proof (load_hdel_le h a). cbn [load fold_right snd]. fold (load h). lia.
  - specialize (IH E). cbn [load fold_right snd]. fold (load h). fold (load (hdel h a)). lia.
Qed.
Lemma load_hput h a b b' : hget h a = Some b -> load (hput h a b') + wt (col b) <= load h + wt (col b').
Proof. intros E. pose proof (load_hdel h a b E). unfold hput. cbn [load fold_right snd]. fold (load (hdel h a)). lia. Qed.

Lemma realloc_same grow_ok s : hp (realloc_gray_vals grow_ok s) = hp s /\ young_ptr (realloc_gray_vals grow_ok s) = young_ptr s.
Proof. unfold realloc_gray_vals. destruct (_ <? _); [destruct (grow_ok s)|]; auto. Qed.
Lemma darken_load grow_ok v s s' : darken grow_ok v s = Ret s' -> load (hp s') <= load (hp s) /\ young_ptr s' = young_ptr s.
Proof.
  unfold darken. destruct (_ && _); [|intros E; injection E as <-; split; [lia|reflexivity]].
  destruct (hget (hp s) v) as [b|] eqn:B; [|discriminate]. destruct (color_eqb_spec (col b) White) as [W|W]; [|intros E; injection E as <-; split; [lia|reflexivity]].
  unfold push_gray. destruct (_ <? _); [|discriminate]. cbn [bind]. intros E.
  assert (load (hput (hp s) v (set_col b Gray)) <= load (hp s)) as K.
  { pose proof (load_hput (hp s) v b (set_col b Gray) B) as Q. rewrite W in Q. cbn [col set_col wt] in Q. lia. }
  destruct (_ >=? _); injection E as <-; [|split; [exact K|reflexivity]].
  match goal with |- context [realloc_gray_vals grow_ok ?x] => destruct (realloc_same grow_ok x) as [-> ->] end.
  split; [exact K|reflexivity].
Qed.
Lemma darken_all_load grow_ok l : forall s s', darken_all grow_ok l s = Ret s' -> load (hp s') <= load (hp s) /\ young_ptr s' = young_ptr s.
Proof.
  induction l as [|v l IH]; intros s s' E; cbn [darken_all] in E.
  - injection E as <-. split; [lia|reflexivity].
  - destruct (darken grow_ok v s) as [s1| | |] eqn:D; try discriminate. cbn [bind] in E. apply darken_load in D. apply IH in E. split; [lia|]. destruct D, E. congruence.
Qed.

(** chunks still to come *)
Definition tot (l : list (Z * Z)) : Z := fold_right (fun c m => snd c + 1 + m) 0 l.
Fixpoint rest (l : list (Z * Z)) (c : Z) : Z :=
  match l with [] => 0 | (x, n) :: l => if x =? c then tot l else rest l c end.
Lemma tot_nonneg l : (forall c n, In (c, n) l -> 0 < n) -> 0 <= tot l.
Proof.
  induction l as [|[c n] l IH]; intros P; cbn; [lia|]. pose proof (P c n (or_introl eq_refl)). fold (tot l).
  specialize (IH (fun c n Q => P c n (or_intror Q))). lia.
Qed.
Lemma rest_nonneg l c : (forall c n, In (c, n) l -> 0 < n) -> 0 <= rest l c.
Proof.
  induction l as [|[x n] l IH]; intros P; cbn; [lia|]. destruct (x =? c).
  - apply tot_nonneg. intros d m Q. apply (P d m). now right.
  - apply IH. intros d m Q. apply (P d m). now right.
Qed.
Lemma chunk_after_in l c c' n' : chunk_after l c = Some (c', n') -> In (c', n') l.
Proof.
  induction l as [|[x n] l IH]; cbn; [discriminate|]. destruct (x =? c); [|auto]. destruct l; [discriminate|]. cbn. intros E. injection E as ->. auto.
Qed.
Lemma rest_after l : StronglySorted (fun c c' => fst c + snd c <= fst c') l -> (forall c n, In (c, n) l -> 0 < n) ->
  forall c c' n', chunk_after l c = Some (c', n') -> rest l c = n' + 1 + rest l c'.
Proof.
  induction 1 as [|[x n] l S IH F]; intros P c c' n' E; [discriminate|]. rewrite Forall_forall in F. cbn [chunk_after rest] in *.
  pose proof (P x n (or_introl eq_refl)) as PN. destruct (Z.eqb_spec x c) as [->|N].
  - destruct l as [|e l']; [discriminate|]. cbn [hd_error] in E. assert (e = (c', n')) as -> by congruence.
    specialize (F _ (or_introl eq_refl)). cbn [fst snd] in F. destruct (Z.eqb_spec c c'); [lia|]. cbn [rest]. rewrite Z.eqb_refl. cbn [tot fold_right snd]. fold (tot l'). lia.
  - specialize (F _ (chunk_after_in _ _ _ _ E)). cbn [fst snd] in F. destruct (Z.eqb_spec x c'); [lia|]. apply IH; auto. intros d m Q. apply (P d m). now right.
Qed.

Section Full.
Variables young_start young_end : Z.
Variable alloc_at : st -> Z -> option (Z * list (Z * Z) * list Z).
Variable grow_ok : st -> bool.
Variable free_size : st -> Z -> Z.
Variable outside : Z -> Prop.
Notation is_young := (is_young young_start young_end).
Notation layout := (layout young_start young_end outside).
Notation inv := (inv young_start young_end outside).
Notation step := (step young_start young_end alloc_at grow_ok free_size outside).
Notation run := (run young_start young_end alloc_at grow_ok free_size outside).
Hypothesis AL : allocator young_start young_end alloc_at outside.
Hypothesis FB : free_blocks young_start young_end free_size outside.
Hypothesis ZO : zone young_start young_end outside.
Notation started := (started young_start).

Definition wdist (s : st) : Z :=
  if markhp (gc s) =? 0 then 0 else limit (gc s) - markhp (gc s) + rest (chunks s) (chunk (gc s)) + 1.
Definition sdist (s : st) : Z := limit (gc s) - sweep_hp (gc s) + rest (chunks s) (chunk (gc s)).

Lemma lay_pos s : layout s -> forall c n, In (c, n) (chunks s) -> 0 < n.
Proof. intros L c n I. now destruct (l_chunk _ _ _ _ L c n I) as (_ & Q & _). Qed.
Lemma wdist_nonneg s : inv s -> phase (gc s) = Phase_mark -> 0 <= wdist s.
Proof.
  intros [[W _ MK _] _] P. specialize (MK P). unfold wdist. destruct (Z.eqb_spec (markhp (gc s)) 0) as [E|E]; [lia|].
  destruct (mk_walk _ _ _ MK E) as (n & _ & _ & Q). pose proof (rest_nonneg (chunks s) (chunk (gc s)) (lay_pos s (w_lay _ _ _ _ W))). lia.
Qed.
Lemma sdist_nonneg s : inv s -> phase (gc s) = Phase_sweep -> 0 <= sdist s.
Proof.
  intros [[W _ _ RS] _] P. specialize (RS ltac:(congruence)). unfold sdist. destruct (rs_walk _ _ _ RS) as (n & _ & _ & Q).
  pose proof (rest_nonneg (chunks s) (chunk (gc s)) (lay_pos s (w_lay _ _ _ _ W))). lia.
Qed.

Lemma ret_inj (a b : st) : Ret a = Ret b -> b = a.
Proof. congruence. Qed.
Lemma ret_inj2 (r r' : swept) (a b : st) : Ret (r, a) = Ret (r', b) -> r' = r /\ b = a.
Proof. intros E. split; congruence. Qed.
Lemma mark_measure s s' : inv s -> started s -> phase (gc s) = Phase_mark -> mark_step grow_ok free_size s = Ret s' ->
  young_ptr s' = young_ptr s /\
  (phase (gc s') = Phase_mark -> load (hp s') < load (hp s) \/
   (load (hp s') <= load (hp s) /\ ((pure (gc s) = false /\ pure (gc s') = true) \/ (pure (gc s') = pure (gc s) /\ wdist s' < wdist s)))).
Proof.
  intros I ST PM. pose proof I as [[W CL MK _] RT]. specialize (MK PM). pose proof (w_lay _ _ _ _ W) as L. unfold mark_step.
  destruct (gray (gc s)) as [|v l] eqn:G.
  - destruct (Z.eqb_spec (markhp (gc s)) 0) as [Z0|Z0]; cbn [negb].
    + destruct (heap_start s) as [[c n]|]; [|discriminate]. destruct (pure (gc s)) eqn:P; cbn [negb]; intros E; apply ret_inj in E as ->; (split; [reflexivity|]).
      * cbn. discriminate.
      * intros _. right. split; [apply Z.le_refl|]. left. auto.
    + destruct (mk_walk _ _ _ MK Z0) as (n & CI & LI & RG).
      assert (wdist s = limit (gc s) - markhp (gc s) + rest (chunks s) (chunk (gc s)) + 1) as WD by (unfold wdist; destruct (Z.eqb_spec (markhp (gc s)) 0); [contradiction|reflexivity]).
      pose proof (rest_nonneg (chunks s) (chunk (gc s)) (lay_pos s L)) as RN.
      destruct (Z.eqb_spec (markhp (gc s)) (limit (gc s))) as [EL|EL].
      * destruct (chunk_after (chunks s) (chunk (gc s))) as [[c m]|] eqn:CA; intros E; apply ret_inj in E as ->; (split; [reflexivity|]); intros _; right; (split; [apply Z.le_refl|]); right; (split; [reflexivity|]).
        -- rewrite WD, (rest_after _ (l_sorted _ _ _ _ L) (lay_pos s L) _ _ _ CA). pose proof (lay_pos s L c m (chunk_after_in _ _ _ _ CA)).
           assert (c > 0) by (destruct (l_chunk _ _ _ _ L c m (chunk_after_in _ _ _ _ CA)); lia).
           unfold wdist. cbn [gc set_gc set_walk markhp limit chunk chunks]. destruct (Z.eqb_spec c 0); lia.
        -- rewrite WD. unfold wdist. cbn. lia.
      * destruct (hget (hp s) (markhp (gc s) + 8)) as [b|] eqn:B.
        -- assert (forall s1, (if color_eqb (col b) Gray then push_gray (markhp (gc s) + 8) s else Ret s) = Ret s1 -> hp s1 = hp s /\ young_ptr s1 = young_ptr s /\ chunks s1 = chunks s /\ pure (gc s1) = pure (gc s)) as PG.
           { intros s1. destruct (color_eqb _ _); [|intros E; apply ret_inj in E as ->; auto]. unfold push_gray. destruct (_ <? _); [|discriminate]. intros E; apply ret_inj in E as ->. auto. }
           destruct (if color_eqb (col b) Gray then push_gray (markhp (gc s) + 8) s else Ret s) as [s1| | |] eqn:E1; try discriminate. cbn [bind].
           destruct (PG s1 eq_refl) as (P1 & P2 & P3 & P4). intros E; apply ret_inj in E as ->. split; [exact P2|]. intros _. right. cbn [hp set_gc]. split; [rewrite P1; lia|]. right.
           split; [exact P4|]. rewrite WD. unfold wdist. cbn [gc set_gc set_walk markhp limit chunk chunks]. rewrite P3. pose proof (zlen_nonneg (fs b)). destruct (_ =? 0); lia.
        -- intros E; apply ret_inj in E as ->. split; [reflexivity|]. intros _. right. cbn [hp set_gc]. split; [lia|]. right. split; [reflexivity|].
           destruct (FB s (markhp (gc s)) (chunk (gc s)) n L CI ltac:(lia) B) as (F1 & F2 & _).
           rewrite WD. unfold wdist. cbn [gc set_gc set_walk markhp limit chunk chunks]. destruct (_ =? 0); lia.
  - destruct (so_gray _ _ _ (mk_stack _ _ _ MK) v ltac:(rewrite G; now left)) as (Y & b & B & CG). rewrite B.
    pose proof (load_hput (hp s) v b (set_col b Black) B) as LP. rewrite CG in LP. cbn [col set_col wt] in LP.
    destruct (tag b <? No_scan_tag).
    + intros E. apply darken_all_load in E. cbn [hp set_hp set_gc young_ptr] in E. split; [apply E|]. intros _. left. lia.
    + destruct (tag b =? Weak_tag); intros E; apply ret_inj in E as ->; (split; [reflexivity|]); intros _; left; cbn [hp set_hp set_gc]; lia.
Qed.
Lemma sweep_measure s r s' : inv s -> started s -> phase (gc s) = Phase_sweep -> sweep_step grow_ok free_size s = Ret (r, s') ->
  young_ptr s' = young_ptr s /\ (r <> SwCycle -> sdist s' < sdist s).
Proof.
  intros I ST PM. pose proof I as [[W CL _ RS] RT]. specialize (RS ltac:(congruence)). pose proof (w_lay _ _ _ _ W) as L. unfold sweep_step.
  destruct (rs_walk _ _ _ RS) as (n & CI & LI & RG). destruct (Z.ltb_spec (sweep_hp (gc s)) (limit (gc s))) as [LT|LT].
  - destruct (hget (hp s) (sweep_hp (gc s) + 8)) as [b|] eqn:B.
    + pose proof (zlen_nonneg (fs b)). destruct (col b); intros E; try discriminate; apply ret_inj2 in E as [-> ->]; (split; [reflexivity|]); intros _; unfold sdist; cbn [gc set_gc set_hp set_sweep sweep_hp limit chunk chunks]; lia.
    + intros E. apply ret_inj2 in E as [-> ->]. split; [reflexivity|]. intros _. destruct (FB s (sweep_hp (gc s)) (chunk (gc s)) n L CI ltac:(lia) B) as (F1 & F2 & _).
      unfold sdist; cbn [gc set_gc set_hp set_sweep sweep_hp limit chunk chunks]; lia.
  - destruct (chunk_after (chunks s) (chunk (gc s))) as [[c m]|] eqn:CA.
    + intros E. apply ret_inj2 in E as [-> ->]. split; [reflexivity|]. intros _. unfold sdist. cbn [gc set_gc set_hp set_sweep sweep_hp limit chunk chunks].
      rewrite (rest_after _ (l_sorted _ _ _ _ L) (lay_pos s L) _ _ _ CA). lia.
    + unfold start_cycle. destruct (darken grow_ok _ _) as [s1| | |] eqn:D1; try discriminate. cbn [bind].
      destruct (darken_all grow_ok _ s1) as [s2| | |] eqn:D2; try discriminate. cbn [bind]. intros E. apply ret_inj2 in E as [-> ->].
      apply darken_load in D1. apply darken_all_load in D2. split; [|congruence]. cbn [young_ptr set_gc] in *. destruct D1, D2. congruence.
Qed.

(** ** Runs of the collector alone *)
Record crun (s : st) (evs : list event) (s' : st) : Prop := {
  cr_run : run s evs s';
  cr_ev : forall v, ~ In (EWeak v) evs;
  cr_bw : forall a b', hget (hp s') a = Some b' -> exists b, hget (hp s) a = Some b /\ tag b' = tag b /\ (tag b <> Weak_tag -> fs b' = fs b);
  cr_fw : forall a b, reach s a -> hget (hp s) a = Some b -> exists b', hget (hp s') a = Some b';
  cr_free : forall a, In (EFree a) evs -> hget (hp s') a = None;
  cr_roots : roots s' = roots s;
  cr_globals : globals s' = globals s;
  cr_ptr : young_ptr s' = young_ptr s
}.
Lemma cr_reach s evs s' v : crun s evs s' -> (reach s' v <-> reach s v).
Proof.
  intros C. split; intros R; induction R as [v I| |a b v R IH B T I].
  - apply reach_root. now rewrite <- (cr_roots _ _ _ C).
  - rewrite (cr_globals _ _ _ C). apply reach_globals.
  - destruct (cr_bw _ _ _ C a b B) as (b0 & B0 & T0 & F0). apply (reach_field s a b0 v IH B0); [lia|]. rewrite <- F0; [exact I|unfold Weak_tag, No_scan_tag in *; lia].
  - apply reach_root. now rewrite (cr_roots _ _ _ C).
  - rewrite <- (cr_globals _ _ _ C). apply reach_globals.
  - destruct (cr_fw _ _ _ C a b R B) as (b' & B'). destruct (cr_bw _ _ _ C a b' B') as (b0 & B0 & T0 & F0). assert (b0 = b) as -> by congruence.
    apply (reach_field s' a b' v IH B'); [lia|]. rewrite F0; [exact I|unfold Weak_tag, No_scan_tag in *; lia].
Qed.
Lemma run_app s e1 s1 e2 s2 : run s e1 s1 -> run s1 e2 s2 -> run s (e1 ++ e2) s2.
Proof. intros R1 R2. induction R1; [exact R2|]. cbn. econstructor; eauto. Qed.
Lemma crun_trans s e1 s1 e2 s2 : crun s e1 s1 -> crun s1 e2 s2 -> crun s (e1 ++ e2) s2.
Proof.
  intros A B. constructor.
  - eapply run_app; [apply A|apply B].
  - intros v I. apply in_app_iff in I as [I|I]; [now apply A in I|now apply B in I].
  - intros a b2 H. destruct (cr_bw _ _ _ B a b2 H) as (b1 & H1 & T1 & F1). destruct (cr_bw _ _ _ A a b1 H1) as (b & H0 & T0 & F0). exists b. split; [exact H0|].
    split; [congruence|]. intros N. rewrite F1 by congruence. auto.
  - intros a b R H. destruct (cr_fw _ _ _ A a b R H) as (b1 & H1). apply (cr_fw _ _ _ B a b1); [|exact H1]. now apply (cr_reach _ _ _ a A).
  - intros a I. apply in_app_iff in I as [I|I]; [|now apply (cr_free _ _ _ B)]. apply (cr_free _ _ _ A) in I.
    destruct (hget (hp s2) a) as [b|] eqn:H; [|reflexivity]. destruct (cr_bw _ _ _ B a b H) as (b1 & H1 & _). congruence.
  - rewrite (cr_roots _ _ _ B). apply A.
  - rewrite (cr_globals _ _ _ B). apply A.
  - rewrite (cr_ptr _ _ _ B). apply A.
Qed.
Lemma crun_nil s : crun s [] s.
Proof. constructor; auto; [constructor|intros a b' H; exists b'; auto|intros a b _ H; eauto|intros a []]. Qed.

Lemma crun_mark s s' : inv s -> started s -> phase (gc s) = Phase_mark -> mark_step grow_ok free_size s = Ret s' -> crun s [ETau] s'.
Proof.
  intros I ST P E. destruct (mark_ok _ _ grow_ok free_size outside ZO FB s I ST P) as (s2 & E2 & _ & R & _). assert (s2 = s') as -> by congruence.
  constructor.
  - econstructor; [|constructor]. apply step_mark; auto.
  - intros v [Q|[]]. discriminate.
  - intros a b' H. destruct (rc_bw _ _ _ _ _ _ R H) as (b & B & T & F & _). exists b. auto.
  - intros a b _ H. destruct (rc_fw _ _ _ _ R a b H) as (b' & B & _). eauto.
  - intros a [Q|[]]. discriminate.
  - apply R.
  - apply R.
  - apply R.
Qed.
Lemma crun_weak s s' : inv s -> started s -> phase (gc s) = Phase_weak -> weak_phase s = Ret s' -> crun s [ETau] s' /\ phase (gc s') = Phase_sweep.
Proof.
  intros I ST P E. destruct (weak_ok _ _ grow_ok outside ZO s I ST P) as (h & E2 & _ & HH & WW).
  assert (s' = set_gc (set_hp s h) (set_phase (set_weak (gc s) []) Phase_sweep)) as Q by congruence. subst s'. split; [|reflexivity].
  constructor; cbn [hp set_gc set_hp roots globals young_ptr]; auto.
  - econstructor; [|constructor]. apply step_weak; auto.
  - intros v [Q|[]]. discriminate.
  - intros a b' H. rewrite HH in H. destruct (in_dec _ _ _) as [J|J]; [|exists b'; auto]. destruct (WW a J) as (b & B & T & _). rewrite B in *. injection H as <-.
    exists b. split; [reflexivity|]. split; [reflexivity|]. congruence.
  - intros a b _ H. rewrite HH, H. destruct (in_dec _ _ _); cbn; eauto.
  - intros a [Q|[]]. discriminate.
Qed.
Lemma crun_sweep s r s' : inv s -> started s -> phase (gc s) = Phase_sweep -> sweep_step grow_ok free_size s = Ret (r, s') ->
  crun s [match r with SwFree a => EFree a | SwCycle => ECycle | SwOther => ETau end] s'.
Proof.
  intros I ST P E. destruct (sweep_ok _ _ grow_ok free_size outside ZO FB s I ST P) as (r2 & s2 & E2 & _ & R & GL & BW & K). assert (r2 = r /\ s2 = s') as [-> ->] by (split; congruence).
  constructor; auto.
  - econstructor; [|constructor]. now apply step_sweep.
  - intros v [Q|[]]. destruct r; discriminate.
  - intros a b' H. destruct (BW a b' H) as (b & B & T & F). exists b. auto.
  - intros a b RA H. destruct r as [c| |]; [|now apply K with b|now apply K with b].
    destruct K as (NS & _ & _ & O & _). exists b. rewrite O; [exact H|]. intros ->. apply NS.
    pose proof I as [[W CL _ _] _]. apply (good_sv _ _ outside ZO s c b W); [|exact H]. now apply (reach_good _ _ outside ZO s c W CL).
  - intros a [Q|[]]. destruct r as [c| |]; try discriminate. injection Q as ->. apply K.
  - apply (sweep_measure s r s' I ST P E).
Qed.
Lemma crun_inv s evs s' : inv s -> crun s evs s' -> inv s'.
Proof. intros I C. apply (run_inv _ _ alloc_at grow_ok free_size outside AL FB ZO s evs s' I). apply C. Qed.
Lemma crun_started s evs s' : started s -> crun s evs s' -> started s'.
Proof. unfold Gc_Major.started. intros S C. rewrite (cr_ptr _ _ _ C). exact S. Qed.

(** what it means for a loop with fuel to end *)
Definition ends (f : nat -> outcome st) (P : st -> Prop) : Prop := exists n s', (forall fuel, (n <= fuel)%nat -> f fuel = Ret s') /\ P s'.

Lemma mark_all_step s s1 : mark_step grow_ok free_size s = Ret s1 -> phase (gc s1) = Phase_mark -> forall P : st -> Prop,
  ends (fun k => mark_all grow_ok free_size k s1) P -> ends (fun k => mark_all grow_ok free_size k s) P.
Proof.
  intros E PM P (n & s' & K & Q). exists (S n), s'. split; [|exact Q]. intros fuel F. destruct fuel as [|k]; [lia|]. cbn [mark_all]. rewrite E. cbn [bind]. rewrite PM. apply K. lia.
Qed.
Definition marked (s s' : st) : Prop := (exists evs, crun s evs s') /\ phase (gc s') = Phase_weak.
Lemma mark_ends s : inv s -> started s -> phase (gc s) = Phase_mark -> ends (fun k => mark_all grow_ok free_size k s) (marked s).
Proof.
  assert (forall L s, load (hp s) < L -> inv s -> started s -> phase (gc s) = Phase_mark -> ends (fun k => mark_all grow_ok free_size k s) (marked s)) as K.
  2: { intros I ST P. apply (K (load (hp s) + 1)); auto. lia. }
  clear s. intros L0. assert (L0 <= Z.of_nat (Z.to_nat L0)) as LL by lia. revert LL. generalize (Z.to_nat L0). intros N. revert L0. induction N as [|N IHN]; intros L0 LL s' LD I ST PM.
  { pose proof (load_nonneg (hp s')). lia. }
  (* one turn, given what to do when the measure stays in the same class *)
  assert (forall s, load (hp s) < L0 -> inv s -> started s -> phase (gc s) = Phase_mark ->
    (forall s1, load (hp s1) < L0 -> inv s1 -> started s1 -> phase (gc s1) = Phase_mark ->
       (pure (gc s) = false /\ pure (gc s1) = true) \/ (pure (gc s1) = pure (gc s) /\ wdist s1 < wdist s) -> ends (fun k => mark_all grow_ok free_size k s1) (marked s1)) ->
    ends (fun k => mark_all grow_ok free_size k s) (marked s)) as TURN.
  { clear s' LD I ST PM. intros s LD I ST PM REC.
    destruct (mark_ok _ _ grow_ok free_size outside ZO FB s I ST PM) as (s1 & E & I1 & _ & _ & PH). pose proof (crun_mark s s1 I ST PM E) as CR.
    destruct (mark_measure s s1 I ST PM E) as [YP MS]. assert (started s1) as ST1 by (unfold Gc_Major.started in *; congruence).
    destruct PH as [PH|(PH & _)].
    - assert (ends (fun k => mark_all grow_ok free_size k s1) (marked s1)) as (n & s2 & E2 & (evs & C2) & P2).
      { destruct (MS PH) as [M|(M & D)]; [|apply REC; auto; lia]. apply (IHN (L0 - 1)); auto; lia. }
      apply (mark_all_step s s1 E PH). exists n, s2. split; [exact E2|]. split; [|exact P2]. exists ([ETau] ++ evs). eapply crun_trans; eauto.
    - exists 1%nat, s1. split; [|split; [exists [ETau]; exact CR|exact PH]]. intros fuel F. destruct fuel as [|k]; [lia|]. cbn [mark_all]. rewrite E. cbn [bind]. now rewrite PH. }
  assert (forall D s, wdist s < Z.of_nat D -> pure (gc s) = true -> load (hp s) < L0 -> inv s -> started s -> phase (gc s) = Phase_mark -> ends (fun k => mark_all grow_ok free_size k s) (marked s)) as PT.
  { induction D as [|D IHD]; intros s WD PU LD1 I1 ST1 PM1.
    - pose proof (wdist_nonneg s I1 PM1). lia.
    - apply TURN; auto. intros s1 LD2 I2 ST2 PM2 [[Q _]|[Q1 Q2]]; [congruence|]. apply IHD; auto; [lia|congruence]. }
  assert (forall D s, wdist s < Z.of_nat D -> pure (gc s) = false -> load (hp s) < L0 -> inv s -> started s -> phase (gc s) = Phase_mark -> ends (fun k => mark_all grow_ok free_size k s) (marked s)) as PF.
  { induction D as [|D IHD]; intros s WD PU LD1 I1 ST1 PM1.
    - pose proof (wdist_nonneg s I1 PM1). lia.
    - apply TURN; auto. intros s1 LD2 I2 ST2 PM2 [[_ Q]|[Q1 Q2]].
      + apply (PT (S (Z.to_nat (wdist s1)))); auto. pose proof (wdist_nonneg s1 I2 PM2). lia.
      + apply IHD; auto; [lia|congruence]. }
  pose proof (wdist_nonneg s' I PM). destruct (pure (gc s')) eqn:PU; [apply (PT (S (Z.to_nat (wdist s'))))|apply (PF (S (Z.to_nat (wdist s'))))]; auto; lia.
Qed.

Definition cycled (s s' : st) : Prop := (exists evs, crun s (evs ++ [ECycle]) s') /\ phase (gc s') = Phase_mark.
Lemma sweep_ends s : inv s -> started s -> phase (gc s) = Phase_sweep -> ends (fun k => sweep_all grow_ok free_size k s) (cycled s).
Proof.
  intros I ST PS. assert (sdist s < Z.of_nat (S (Z.to_nat (sdist s)))) as LT by (pose proof (sdist_nonneg s I PS); lia). revert LT. generalize (S (Z.to_nat (sdist s))). intros N. revert s I ST PS.
  induction N as [|N IH]; intros s I ST PS LT; [pose proof (sdist_nonneg s I PS); lia|].
  destruct (sweep_ok _ _ grow_ok free_size outside ZO FB s I ST PS) as (r & s1 & E & I1 & _ & _ & _ & K). pose proof (crun_sweep s r s1 I ST PS E) as CR.
  destruct (sweep_measure s r s1 I ST PS E) as [YP MS]. assert (started s1) as ST1 by (unfold Gc_Major.started in *; congruence).
  assert (r <> SwCycle -> phase (gc s1) = Phase_sweep -> ends (fun k => sweep_all grow_ok free_size k s) (cycled s)) as GO.
  { intros NR P1. specialize (MS NR). destruct (IH s1 I1 ST1 P1 ltac:(lia)) as (n & s2 & E2 & (evs & C2) & P2). exists (S n), s2. split; [|split; [|exact P2]].
    - intros fuel F. destruct fuel as [|k]; [lia|]. cbn [sweep_all]. rewrite E. cbn [bind]. rewrite <- (E2 k) by lia. destruct r; [reflexivity|contradiction|reflexivity].
    - eexists (_ :: evs). cbn [app]. exact (crun_trans _ _ _ _ _ CR C2). }
  destruct r as [a| |].
  - apply GO; [discriminate|apply K].
  - exists 1%nat, s1. split; [|split; [exists []; exact CR|apply K]]. intros fuel F. destruct fuel as [|k]; [lia|]. cbn [sweep_all]. rewrite E. reflexivity.
  - apply GO; [discriminate|apply K].
Qed.

Lemma finish_ends s : inv s -> started s -> ends (fun k => finish_major_cycle grow_ok free_size k s) (cycled s).
Proof.
  assert (forall s, inv s -> started s -> phase (gc s) = Phase_weak -> ends (fun k => do s <- weak_phase s; sweep_all grow_ok free_size k s) (cycled s)) as KW.
  { clear s. intros s I ST P. destruct (weak_ok _ _ grow_ok outside ZO s I ST P) as (h & E & I1 & _). destruct (crun_weak s _ I ST P E) as [CR P1].
    destruct (sweep_ends _ I1 (crun_started _ _ _ ST CR) P1) as (n & s2 & E2 & (evs & C2) & P2). exists n, s2. split; [|split; [exists (ETau :: evs); exact (crun_trans _ _ _ _ _ CR C2)|exact P2]].
    intros fuel F. rewrite E. cbn [bind]. auto. }
  intros I ST. unfold finish_major_cycle. destruct (phase (gc s)) eqn:P.
  - destruct (mark_ends s I ST P) as (n & s1 & E1 & (evs1 & C1) & P1). pose proof (crun_inv _ _ _ I C1) as I1. pose proof (crun_started _ _ _ ST C1) as ST1.
    destruct (KW s1 I1 ST1 P1) as (m & s2 & E2 & (evs2 & C2) & P2). exists (n + m)%nat, s2. split; [|split; [exists (evs1 ++ evs2); rewrite <- app_assoc; exact (crun_trans _ _ _ _ _ C1 C2)|exact P2]].
    intros fuel F. rewrite E1 by lia. cbn [bind]. rewrite P1. apply E2. lia.
  - destruct (KW s I ST P) as (m & s2 & E2 & C2). exists m, s2. split; [|exact C2]. intros fuel F. cbn [bind]. rewrite P. now apply E2.
  - destruct (sweep_ends s I ST P) as (m & s2 & E2 & C2). exists m, s2. split; [|exact C2]. intros fuel F. cbn [bind]. rewrite P. now apply E2.
Qed.

Lemma slice_ends n s : inv s -> started s -> exists s' evs, major_collection_slice grow_ok free_size n s = Ret s' /\ crun s evs s'.
Proof.
  assert (forall n s, inv s -> started s -> phase (gc s) = Phase_mark -> exists s' evs, mark_slice grow_ok free_size n s = Ret s' /\ crun s evs s') as M.
  { clear n s. induction n as [|n IH]; intros s I ST P; [exists s, []; split; [reflexivity|apply crun_nil]|]. cbn [mark_slice].
    destruct (mark_ok _ _ grow_ok free_size outside ZO FB s I ST P) as (s1 & E & I1 & _ & _ & PH). pose proof (crun_mark s s1 I ST P E) as CR. rewrite E. cbn [bind].
    pose proof (crun_started _ _ _ ST CR) as ST1. destruct (phase (gc s1)) eqn:P1.
    - destruct (IH s1 I1 ST1 P1) as (s2 & evs & E2 & C2). exists s2. eexists. split; [exact E2|]. eapply crun_trans; eauto.
    - eauto.
    - eauto. }
  assert (forall n s, inv s -> started s -> phase (gc s) = Phase_sweep -> exists s' evs, sweep_slice grow_ok free_size n s = Ret s' /\ crun s evs s') as SW.
  { clear n s. induction n as [|n IH]; intros s I ST P; [exists s, []; split; [reflexivity|apply crun_nil]|]. cbn [sweep_slice].
    destruct (sweep_ok _ _ grow_ok free_size outside ZO FB s I ST P) as (r & s1 & E & I1 & _ & _ & _ & K). pose proof (crun_sweep s r s1 I ST P E) as CR. rewrite E. cbn [bind].
    pose proof (crun_started _ _ _ ST CR) as ST1.
    assert (phase (gc s1) = Phase_sweep -> exists s' evs, sweep_slice grow_ok free_size n s1 = Ret s' /\ crun s evs s') as GO.
    { intros P1. destruct (IH s1 I1 ST1 P1) as (s2 & evs & E2 & C2). exists s2. eexists. split; [exact E2|]. eapply crun_trans; eauto. }
    destruct r; [apply GO, K|eauto|apply GO, K]. }
  intros I ST. unfold major_collection_slice. destruct (phase (gc s)) eqn:P; auto.
  destruct (weak_ok _ _ grow_ok outside ZO s I ST P) as (h & E & _). destruct (crun_weak s _ I ST P E) as [CR _]. eauto.
Qed.

(** A run of the collector alone through two starts of a cycle frees all that is unreachable. *)
Lemma two_cycles s e1 s1 e2 s2 : inv s -> crun s (e1 ++ [ECycle]) s1 -> crun s1 (e2 ++ [ECycle]) s2 ->
  forall a, ~ reach s a -> hget (hp s2) a = None.
Proof.
  intros I C1 C2 a N. pose proof (crun_inv _ _ _ I C1) as I1.
  assert (exists t, inv t /\ step t ECycle s1) as (t & IT & STP).
  { pose proof (cr_run _ _ _ C1) as R. clear C1 C2 I1 N. remember (e1 ++ [ECycle]) as l eqn:EL. revert e1 EL. induction R as [|s0 e s3 l s4 S R IH]; intros e1 EL; [destruct e1; discriminate|].
    destruct e1 as [|e' e1]; cbn in EL; injection EL as -> EL.
    - subst l. inversion R; subst. eauto.
    - apply (IH (step_inv _ _ _ _ _ _ AL FB ZO _ _ _ I S) e1 EL). }
  pose proof (gar_start _ _ alloc_at grow_ok free_size outside FB ZO t s1 IT STP) as G.
  destruct (hget (hp s2) a) as [b2|] eqn:H2; [|reflexivity]. destruct (cr_bw _ _ _ C2 a b2 H2) as (b1 & H1 & _).
  assert (In (EFree a) (e2 ++ [ECycle])) as F.
  { apply (gar_run _ _ alloc_at grow_ok free_size outside AL FB ZO s1 _ s2 (cr_run _ _ _ C2) I1 _ G).
    - apply in_app_iff. right. now left.
    - intros l1 v l2 E _. exfalso. apply (cr_ev _ _ _ C2 v). rewrite E. apply in_app_iff. right. now left.
    - split; [eauto|]. now rewrite (cr_reach _ _ _ a C1). }
  rewrite (cr_free _ _ _ C2 a F) in H2. discriminate.
Qed.
End Full.
