(** The steps of the major collector keep the invariant. *)
From Coq Require Import Sorting.Sorted.
From Verif Require Import Base ArrayLib Gc_Model Gc_Spec Gc_Heap Gc_Dark Gc_Inv.

(** ** The list of chunks *)
Section Chunks.
Notation apart := (fun c c' : Z * Z => fst c + snd c <= fst c').
Lemma sorted_apart l : StronglySorted apart l -> forall c c', In c l -> In c' l -> c = c' \/ fst c + snd c <= fst c' \/ fst c' + snd c' <= fst c.
Proof.
  induction 1 as [|x l S IH F]; intros c c' A B; [destruct A|]. rewrite Forall_forall in F.
  destruct A as [<-|A], B as [<-|B]; auto.
Qed.
Lemma chunk_after_spec l : StronglySorted apart l -> (forall c n, In (c, n) l -> 0 < n) -> forall c n, In (c, n) l ->
  match chunk_after l c with
  | None => forall c' n', In (c', n') l -> c' <= c
  | Some (c2, n2) => In (c2, n2) l /\ c + n <= c2 /\ forall c' n', In (c', n') l -> c' <= c \/ c2 <= c'
  end.
Proof.
  induction 1 as [|[x m] l S IH F]; intros P c n I; [destruct I|]. rewrite Forall_forall in F. cbn [chunk_after].
  destruct (Z.eqb_spec x c) as [E|E].
  - subst x. assert (n = m) as ->.
    { destruct I as [I|I]; [congruence|]. specialize (F _ I). cbn in F. pose proof (P c m (or_introl eq_refl)). lia. }
    destruct l as [|[y k] l]; cbn [hd_error].
    + intros c' n' [Q|[]]. injection Q as -> ->. lia.
    + pose proof (F _ (or_introl eq_refl)) as F1. cbn in F1. split; [right; now left|]. split; [exact F1|].
      intros c' n' [Q|[Q|Q]]; [injection Q as -> ->; left; lia|injection Q as -> ->; right; lia|]. right.
      apply StronglySorted_inv in S as [_ F2]. rewrite Forall_forall in F2. specialize (F2 _ Q). cbn in F2.
      pose proof (P y k (or_intror (or_introl eq_refl))). lia.
  - destruct I as [I|I]; [congruence|]. specialize (IH (fun c n Q => P c n (or_intror Q)) c n I). pose proof (F _ I) as F1. cbn in F1.
    pose proof (P x m (or_introl eq_refl)).
    destruct (chunk_after l c) as [[c2 n2]|].
    + destruct IH as (A & B & C). split; [now right|]. split; [exact B|]. intros c' n' [Q|Q]; [injection Q as -> ->; left; lia|eauto].
    + intros c' n' [Q|Q]; [injection Q as -> ->; lia|eauto].
Qed.
Lemma chunk_first l c n : StronglySorted apart l -> (forall c n, In (c, n) l -> 0 < n) -> hd_error l = Some (c, n) ->
  In (c, n) l /\ forall c' n', In (c', n') l -> c <= c'.
Proof.
  intros S P H. destruct l as [|x l]; [discriminate|]. cbn in H. injection H as ->. split; [now left|]. apply StronglySorted_inv in S as [_ F].
  rewrite Forall_forall in F. intros c' n' [Q|Q]; [injection Q as -> ->; lia|]. specialize (F _ Q). cbn in F. pose proof (P c n (or_introl eq_refl)). lia.
Qed.
End Chunks.

Section Major.
Variables young_start young_end : Z.
Variable grow_ok : st -> bool.
Variable free_size : st -> Z -> Z.
Variable outside : Z -> Prop.
Notation is_young := (is_young young_start young_end).
Notation layout := (layout young_start young_end outside).
Notation stack_ok := (stack_ok young_start young_end).
Notation pure_ok := (pure_ok young_start young_end).
Notation greyer := (greyer young_start young_end).
Notation known := (known outside).
Notation sv := (sv young_start young_end).
Notation good := (good young_start young_end outside).
Notation some_block := (some_block outside).
Notation wf := (wf young_start young_end outside).
Notation yb := (yb young_start young_end).
Notation rtok := (rtok young_start young_end).
Notation closed := (closed young_start young_end outside).
Notation wprot := (wprot young_start young_end).
Notation prot := (prot young_start young_end).
Notation weak_list := (weak_list young_start young_end).
Notation marking := (marking young_start young_end).
Notation resting := (resting young_start young_end).
Notation core := (core young_start young_end outside).
Notation inv := (inv young_start young_end outside).
Hypothesis ZO : zone young_start young_end outside.
Hypothesis FB : free_blocks young_start young_end free_size outside.

Lemma chunk_pos s c n : layout s -> In (c, n) (chunks s) -> 0 < n.
Proof. intros L I. now destruct (l_chunk _ _ _ _ L c n I) as (_ & ? & _). Qed.
Lemma chunk_same s c n c' n' p : layout s -> In (c, n) (chunks s) -> In (c', n') (chunks s) -> c <= p < c + n -> c' <= p < c' + n' -> (c, n) = (c', n').
Proof.
  intros L A B P Q. destruct (sorted_apart _ (l_sorted _ _ _ _ L) _ _ A B) as [E|[E|E]]; [exact E| |]; cbn in E; lia.
Qed.
(** where an old block is *)
Lemma block_chunk s a b : layout s -> hget (hp s) a = Some b -> is_young a = false ->
  1 <= zlen (fs b) /\ exists c n, In (c, n) (chunks s) /\ c <= a - 8 < c + n /\ a + 8 * zlen (fs b) <= c + n.
Proof.
  intros L A Y. destruct (l_in _ _ _ _ L a b A Y) as (_ & Q & c & n & Q1 & Q2 & Q3). split; [exact Q|]. exists c, n. split; [exact Q1|]. split; [lia|exact Q3].
Qed.
(** past the end of a chunk there is nothing before the next one *)
Lemma past_chunk s c n a b : layout s -> In (c, n) (chunks s) -> hget (hp s) a = Some b -> is_young a = false ->
  match chunk_after (chunks s) c with
  | None => a - 8 < c + n
  | Some (c2, n2) => In (c2, n2) (chunks s) /\ (a - 8 < c + n \/ c2 <= a - 8) /\ c + n <= c2
  end.
Proof.
  intros L I A Y. pose proof (chunk_after_spec _ (l_sorted _ _ _ _ L) (fun c n => chunk_pos s c n L) c n I) as C.
  destruct (block_chunk s a b L A Y) as (_ & c' & n' & Q1 & Q2 & Q3).
  assert (c' <= c -> a - 8 < c + n) as K.
  { intros Q. destruct (sorted_apart _ (l_sorted _ _ _ _ L) _ _ I Q1) as [E|[E|E]]; cbn in E; pose proof (chunk_pos s c n L I).
    - injection E as -> ->. lia.
    - lia.
    - lia. }
  destruct (chunk_after (chunks s) c) as [[c2 n2]|].
  - destruct C as (C1 & C2 & C3). split; [exact C1|]. split; [|exact C2]. destruct (C3 c' n' Q1); [left; auto|right; lia].
  - apply K. eauto.
Qed.
(** a block met by a walk *)
Lemma walk_block s c n p b : layout s -> In (c, n) (chunks s) -> c <= p < c + n -> hget (hp s) (p + 8) = Some b -> is_young (p + 8) = false ->
  1 <= zlen (fs b) /\ p + 8 * (1 + zlen (fs b)) <= c + n /\
  forall a b', hget (hp s) a = Some b' -> is_young a = false -> a <> p + 8 -> a - 8 < p \/ p + 8 * (1 + zlen (fs b)) <= a - 8.
Proof.
  intros L I P A Y. destruct (block_chunk s (p + 8) b L A Y) as (LN & c' & n' & Q1 & Q2 & Q3). split; [exact LN|].
  assert ((c, n) = (c', n')) as E by (apply (chunk_same s c n c' n' p L I Q1 P); lia). injection E as <- <-. split; [lia|].
  intros a b' A' Y' N. destruct (block_chunk s a b' L A' Y') as (LN' & _). destruct (l_disj _ _ _ _ L (p + 8) b a b' A A' Y Y' ltac:(congruence)); lia.
Qed.

(** ** States that differ only in colours and in the collector's own variables *)
Record recol (s s' : st) : Prop := {
  rc_roots : roots s' = roots s;
  rc_globals : globals s' = globals s;
  rc_ptr : young_ptr s' = young_ptr s;
  rc_tab : tab s' = tab s;
  rc_chunks : chunks s' = chunks s;
  rc_fw : forall a b, hget (hp s) a = Some b -> exists b', hget (hp s') a = Some b' /\ tag b' = tag b /\ fs b' = fs b /\
    (is_young a = true -> col b' = col b) /\ (is_young a = false -> col b <> Blue -> col b' <> Blue);
  rc_none : forall a, hget (hp s) a = None -> hget (hp s') a = None
}.
Lemma rc_bw s s' a b' : recol s s' -> hget (hp s') a = Some b' -> exists b, hget (hp s) a = Some b /\ tag b' = tag b /\ fs b' = fs b /\
    (is_young a = true -> col b' = col b) /\ (is_young a = false -> col b <> Blue -> col b' <> Blue).
Proof.
  intros R E. destruct (hget (hp s) a) as [b|] eqn:H.
  - destruct (rc_fw _ _ R _ _ H) as (b2 & E2 & Q). exists b. split; [reflexivity|]. assert (b2 = b') as -> by congruence. exact Q.
  - rewrite (rc_none _ _ R _ H) in E. discriminate.
Qed.
Lemma recol_refl s : recol s s.
Proof. constructor; auto. intros a b A. exists b. auto. Qed.
Lemma recol_trans a b c : recol a b -> recol b c -> recol a c.
Proof.
  intros A B. destruct A, B. constructor; try congruence; auto. intros x bx H. destruct (rc_fw0 _ _ H) as (b1 & H1 & T1 & F1 & C1 & D1).
  destruct (rc_fw1 _ _ H1) as (b2 & H2 & T2 & F2 & C2 & D2). exists b2. split; [exact H2|]. split; [congruence|]. split; [congruence|].
  split; [intros Y; rewrite C2, C1; auto|auto].
Qed.
Lemma recol_greyer s s' : greyer s s' -> recol s s'.
Proof.
  intros G. destruct G. constructor; auto. intros a b A. destruct (g_fw _ _ A) as (b' & Q1 & Q2 & Q3 & Q4). exists b'. split; [exact Q1|]. split; [exact Q2|].
  split; [exact Q3|]. destruct Q4 as [Q4|(Q4 & Q5 & Q6)]; split; intros Y; congruence.
Qed.
Lemma recol_gc s g : recol s (set_gc s g).
Proof. constructor; auto. intros a b A. exists b. auto. Qed.
Lemma recol_layout s s' : recol s s' -> layout s -> layout s'.
Proof.
  intros R L. eapply layout_same; [exact L|apply R|]. intros a b' Y A. destruct (rc_bw _ _ _ _ R A) as (b & B & _ & F & _). exists b. split; [exact B|now rewrite F].
Qed.
Lemma recol_wf s s' : recol s s' -> wf s -> wf s'.
Proof.
  intros R W. destruct W. constructor; rewrite ?(rc_ptr _ _ R), ?(rc_chunks _ _ R), ?(rc_globals _ _ R); auto.
  - eapply recol_layout; eauto.
  - intros a b' A Y. destruct (rc_bw _ _ _ _ R A) as (b & B & T & F & C & _). rewrite T, F, (C Y). eauto.
  - intros a b' A Y. destruct (rc_bw _ _ _ _ R A) as (b & B & T & F & _ & C). eauto.
  - intros a b' A T0. destruct (rc_bw _ _ _ _ R A) as (b & B & T & F & _). rewrite F. apply (w_wlen a b B). congruence.
Qed.
Lemma recol_rtok s s' : recol s s' -> rtok s -> rtok s'.
Proof.
  intros R K. destruct K. constructor; rewrite ?(rc_tab _ _ R), ?(rc_ptr _ _ R); auto.
  - intros a i I. destruct (r_in a i I) as (Y & b & x & A & T & X). split; [exact Y|]. destruct (rc_fw _ _ R _ _ A) as (b' & B & T' & F & _).
    exists b', x. rewrite T', F. auto.
  - intros a b' i x Y A T X YX. destruct (rc_bw _ _ _ _ R A) as (b & B & T' & F & _). rewrite F in X. rewrite T' in T.
    destruct (r_all a b i x Y B T X YX) as (I & c & C). split; [exact I|]. destruct (rc_fw _ _ R _ _ C) as (c' & C' & _). eauto.
Qed.
Lemma recol_some s s' v : recol s s' -> some_block s v -> some_block s' v.
Proof. intros R [Q|[Q|(b & B)]]; [now left|right; now left|]. right. right. destruct (rc_fw _ _ R _ _ B) as (b' & B' & _). eauto. Qed.
(** the same blocks survive *)
Lemma recol_closed s s' : recol s s' -> (forall a, sv s' a <-> sv s a) -> closed s ->
  (phase (gc s') = Phase_weak <-> phase (gc s) = Phase_weak) -> (forall a, In a (weak (gc s)) -> In a (weak (gc s'))) -> closed s'.
Proof.
  intros R S C P WI. assert (forall v, good s' v <-> good s v) as G by (intros v; unfold Gc_Inv.good; now rewrite S). destruct C. constructor.
  - rewrite (rc_roots _ _ R). intros v I. rewrite G. auto.
  - rewrite (rc_globals _ _ R). now rewrite G.
  - intros a b' v SA A T I. rewrite S in SA. rewrite G. destruct (rc_bw _ _ _ _ R A) as (b & B & T' & F & _). apply (cl_fields a b v); auto; congruence.
  - intros a b' v SA A T I. rewrite S in SA. rewrite G, P. destruct (rc_bw _ _ _ _ R A) as (b & B & T' & F & _).
    destruct (cl_weak a b v) as [Q|(Q1 & Q2 & Q3)]; auto; try congruence. right. split; [exact Q1|]. split; [auto|]. eapply recol_some; eauto.
Qed.
Lemma mark_sv s a : phase (gc s) = Phase_mark -> (sv s a <-> exists b, hget (hp s) a = Some b).
Proof. intros P. split; [intros (b & B & _); eauto|]. intros (b & B). exists b. auto. Qed.
Lemma recol_mark_sv s s' : recol s s' -> phase (gc s) = Phase_mark -> phase (gc s') = Phase_mark -> forall a, sv s' a <-> sv s a.
Proof.
  intros R P P' a. rewrite !mark_sv by assumption. split; intros (b & B).
  - destruct (rc_bw _ _ _ _ R B) as (b' & B' & _). eauto.
  - destruct (rc_fw _ _ R _ _ B) as (b' & B' & _). eauto.
Qed.

Lemma old_heap s a b : wf s -> hget (hp s) a = Some b -> is_young a = false -> is_block a && is_in_heap s a = true.
Proof.
  intros W A Y. destruct (alloc_even _ _ _ ZO _ _ _ W A) as [E _]. unfold is_block. rewrite E. cbn [andb]. eapply layout_in_heap; eauto. apply W.
Qed.

(** ** Marking *)
Section Pop.
Variables (s : st) (v : Z) (l : list Z) (b : block) (s1 s2 : st).
Hypothesis W : wf s.
Hypothesis CL : closed s.
Hypothesis M : marking s.
Hypothesis GR : gray (gc s) = v :: l.
Hypothesis V : hget (hp s) v = Some b.
Hypothesis CV : col b = Gray.
Hypothesis YV : is_young v = false.
Hypothesis H1 : forall a, hget (hp s1) a = if a =? v then Some (set_col b Black) else hget (hp s) a.
Hypothesis W1 : weak (gc s1) = if tag b =? Weak_tag then weak (gc s) ++ [v] else weak (gc s).
Hypothesis G2 : greyer s1 s2.
Hypothesis D2 : tag b < No_scan_tag -> forall x c, In x (fs b) -> is_young x = false -> hget (hp s2) x = Some c -> col c <> White.

Lemma pop_wprot x : wprot s x -> prot s2 x.
Proof.
  intros P. induction P as [a c x Y A T I C|a c x Y A T I C P IH]; intros YX d D CW.
  - destruct (Z.eq_dec a v) as [->|N].
    + assert (c = b) as -> by congruence. now elim (D2 T x d I YX D).
    + assert (hget (hp s1) a = Some c) as A1 by (rewrite H1; destruct (Z.eqb_spec a v); [contradiction|exact A]).
      destruct (g_fw _ _ _ _ G2 _ _ A1) as (c2 & A2 & T2 & F2 & [C2|(C2 & _)]); [|congruence].
      apply (wprot_gray _ _ s2 a c2); auto; congruence.
  - assert (a <> v) as N by congruence.
    assert (hget (hp s1) a = Some c) as A1 by (rewrite H1; destruct (Z.eqb_spec a v); [contradiction|exact A]).
    destruct (g_fw _ _ _ _ G2 _ _ A1) as (c2 & A2 & T2 & F2 & [C2|(_ & C2 & _)]).
    + apply (wprot_white _ _ s2 a c2); auto; try congruence. apply (IH Y c2 A2). congruence.
    + apply (wprot_gray _ _ s2 a c2); auto; congruence.
Qed.
Lemma pop_bw a c2 : hget (hp s2) a = Some c2 -> exists c, hget (hp s) a = Some c /\ tag c2 = tag c /\ fs c2 = fs c /\
  ((a = v /\ c = b /\ col c2 = Black) \/ (a <> v /\ (col c2 = col c \/ (col c = White /\ col c2 = Gray /\ is_young a = false)))).
Proof.
  intros A2. destruct (g_bw _ _ _ _ _ _ G2 A2) as (c1 & A1 & T1 & F1 & C1). rewrite H1 in A1. destruct (Z.eqb_spec a v) as [->|N].
  - injection A1 as <-. exists b. cbn in *. repeat (split; [assumption|]). left. destruct C1 as [C1|(C1 & _)]; [auto|discriminate].
  - exists c1. repeat (split; [assumption|]). right. auto.
Qed.
Lemma pop_prot x : prot s x -> prot s2 x.
Proof.
  intros P YX c2 X2 C2. destruct (pop_bw x c2 X2) as (c & X & _ & _ & [(_ & _ & Q)|(N & [Q|(_ & Q & _)])]); try congruence.
  assert (wprot s x) as PX by (apply (P YX c X); congruence). exact (pop_wprot x PX YX c2 X2 C2).
Qed.
End Pop.

Definition started (s : st) : Prop := young_ptr s = young_start.

Lemma pop_ok s v l : core s -> started s -> phase (gc s) = Phase_mark -> gray (gc s) = v :: l ->
  exists s', mark_step grow_ok free_size s = Ret s' /\ core s' /\ recol s s' /\ phase (gc s') = Phase_mark /\
    (forall a b b', hget (hp s) a = Some b -> hget (hp s') a = Some b' -> col b = White -> col b' <> White ->
       exists c, hget (hp s) v = Some c /\ tag c < No_scan_tag /\ In a (fs c)) /\
    (forall b, hget (hp s) v = Some b -> col b = Gray /\ is_young v = false).
Proof.
  intros [W CL MK _] ST PM GR. specialize (MK PM). pose proof MK as M. destruct MK.
  destruct (so_gray _ _ _ mk_stack v) as (YV & b & V & CV); [rewrite GR; now left|].
  unfold mark_step. rewrite GR, V. set (g1 := set_gray (gc s) l (gray_size (gc s)) (pure (gc s))).
  set (s1 := set_hp (set_gc s g1) (hput (hp (set_gc s g1)) v (set_col b Black))).
  assert (forall a, hget (hp s1) a = if a =? v then Some (set_col b Black) else hget (hp s) a) as H1 by (intros a; unfold s1; cbn [hp set_hp set_gc]; apply hget_hput).
  set (s1w := set_gc s1 (set_weak g1 (if tag b =? Weak_tag then weak (gc s) ++ [v] else weak (gc s)))).
  assert (stack_ok s1w) as S1.
  { pose proof mk_stack as [Q1 Q2 Q3 Q4]. rewrite GR in *. constructor; cbn [gc s1w set_gc set_weak g1 set_gray gray gray_size hp s1 set_hp]; auto.
    - intros x I. destruct (Q1 x (or_intror I)) as (YX & c & C1 & C2). split; [exact YX|]. exists c. split; [|exact C2]. change (hget (hp s1) x = Some c). rewrite H1.
      destruct (Z.eqb_spec x v) as [->|N]; [|exact C1]. apply NoDup_cons_iff in Q2 as [Q2 _]. contradiction.
    - now apply NoDup_cons_iff in Q2 as [_ Q2].
    - rewrite zlen_cons in Q3. lia. }
  assert (pure_ok s1w) as P1.
  { intros Q a c Y A C. change (hget (hp s1) a = Some c) in A. rewrite H1 in A. destruct (Z.eqb_spec a v) as [->|N]; [injection A as <-; discriminate|].
    change (In a l \/ (markhp (gc s) <> 0 /\ markhp (gc s) <= a - 8)). destruct (mk_pure Q a c Y A C) as [K|K]; [|now right]. rewrite GR in K. destruct K; [congruence|now left]. }
  assert (recol s s1w) as R1.
  { constructor; try reflexivity.
    - intros a c A. change (hp s1w) with (hp s1). rewrite H1. destruct (Z.eqb_spec a v) as [->|N]; [|exists c; auto].
      assert (c = b) as -> by congruence. eexists. split; [reflexivity|]. cbn. repeat (split; [reflexivity|]). split; [congruence|discriminate].
    - intros a A. change (hp s1w) with (hp s1). rewrite H1. destruct (Z.eqb_spec a v); congruence. }
  assert (wf s1w) as W1 by (apply (recol_wf s); auto).
  (* whatever is darkened *)
  assert (exists s2, (if tag b <? No_scan_tag then darken_all grow_ok (rev (fs b)) s1 else if tag b =? Weak_tag then Ret (set_gc s1 (set_weak (gc s1) (weak (gc s) ++ [v]))) else Ret s1) = Ret s2 /\
     greyer s1w s2 /\ stack_ok s2 /\ pure_ok s2 /\
     (tag b < No_scan_tag -> forall x c, In x (fs b) -> is_young x = false -> hget (hp s2) x = Some c -> col c <> White) /\
     (forall a, (tag b < No_scan_tag -> In a (fs b) -> False) -> hget (hp s2) a = hget (hp s1) a)) as (s2 & E2 & G2 & S2 & P2 & D2 & O2).
  { destruct (Z.ltb_spec (tag b) No_scan_tag) as [T|T].
    - assert (s1w = s1) as E1.
      { unfold s1w. destruct (Z.eqb_spec (tag b) Weak_tag); [unfold No_scan_tag, Weak_tag in *; lia|]. reflexivity. }
      rewrite E1 in *. destruct (darken_all_ok young_start young_end grow_ok outside (rev (fs b)) s1) as (s2 & Q1 & Q2 & Q3 & Q4 & Q5 & Q6); auto.
      + apply W1.
      + apply Forall_forall. intros x I. apply in_rev in I. apply (some_darkenable young_start young_end outside s1 x W1).
        apply (recol_some s); auto. apply (good_some young_start young_end). apply (cl_fields _ _ _ _ CL v b x); auto. now apply mark_sv; eauto.
      + exists s2. split; [exact Q1|]. split; [exact Q2|]. split; [exact Q3|]. split; [exact Q4|]. split.
        * intros _ x c I YX X. apply (Q5 x c); auto; [now apply -> in_rev|]. rewrite <- (greyer_in_heap _ _ _ _ _ Q2).
          apply (old_heap s2 x c); auto. apply (greyer_wf _ _ _ _ _ Q2 W1).
        * intros a N. apply Q6. intros I. apply N; auto. now apply in_rev.
    - exists s1w. split.
      + unfold s1w. destruct (Z.eqb_spec (tag b) Weak_tag); reflexivity.
      + split; [apply greyer_refl|]. split; [exact S1|]. split; [exact P1|]. split; [lia|]. reflexivity. }
  exists s2. split; [exact E2|].
  assert (forall a, hget (hp s1w) a = if a =? v then Some (set_col b Black) else hget (hp s) a) as H1w by exact H1.
  assert (recol s s2) as R2 by (apply (recol_trans s s1w); [exact R1|now apply recol_greyer]).
  assert (phase (gc s2) = Phase_mark) as PM2 by (rewrite (g_phase _ _ _ _ G2); exact PM).
  assert (weak (gc s2) = if tag b =? Weak_tag then weak (gc s) ++ [v] else weak (gc s)) as WK by (rewrite (g_weak _ _ _ _ G2); reflexivity).
  split; [|split; [exact R2|]; split; [exact PM2|]; split].
  - assert (forall x, prot s x -> prot s2 x) as PP by (intros x; apply (pop_prot s v b s1w s2 V CV H1w G2 D2)).
    assert (forall a c2, hget (hp s2) a = Some c2 -> exists c, hget (hp s) a = Some c /\ tag c2 = tag c /\ fs c2 = fs c /\
      ((a = v /\ c = b /\ col c2 = Black) \/ (a <> v /\ (col c2 = col c \/ (col c = White /\ col c2 = Gray /\ is_young a = false))))) as BW
      by (apply (pop_bw s v b s1w s2 V H1w G2)).
    constructor.
    + apply (recol_wf s); auto.
    + apply (recol_closed s); auto.
      * now apply recol_mark_sv.
      * rewrite PM, PM2. tauto.
      * rewrite WK. intros a I. destruct (_ =? _); [apply in_or_app; now left|exact I].
    + intros _. constructor; auto.
      * rewrite (g_markhp _ _ _ _ G2), (g_chunk _ _ _ _ G2), (g_limit _ _ _ _ G2), (g_chunks _ _ _ _ G2). exact mk_walk.
      * intros a. rewrite WK. intros I.
        assert (In a (weak (gc s)) \/ (a = v /\ tag b = Weak_tag)) as [Q|[-> T]].
        { destruct (Z.eqb_spec (tag b) Weak_tag); [|now left]. apply in_app_or in I as [I|[I|[]]]; auto. }
        -- destruct (mk_weak a Q) as (Y & c & A & T & C). split; [exact Y|]. assert (a <> v) by congruence.
           assert (hget (hp s1w) a = Some c) as A1 by (rewrite H1w; destruct (Z.eqb_spec a v); [contradiction|exact A]).
           destruct (g_fw _ _ _ _ G2 _ _ A1) as (c2 & A2 & T2 & _ & [C2|(C2 & _)]); [|congruence]. exists c2. repeat split; congruence.
        -- split; [exact YV|]. assert (hget (hp s1w) v = Some (set_col b Black)) as A1 by (rewrite H1w, Z.eqb_refl; reflexivity).
           destruct (g_fw _ _ _ _ G2 _ _ A1) as (c2 & A2 & T2 & _ & [C2|(C2 & _)]); [|discriminate]. exists c2. cbn in *. repeat split; congruence.
      * rewrite (rc_roots _ _ R2). auto.
      * rewrite (rc_globals _ _ R2). auto.
      * intros a c x Y A. destruct (rc_bw _ _ _ _ R2 A) as (c0 & A0 & _). rewrite (empty_young _ _ grow_ok outside s a W ST Y) in A0. discriminate.
      * intros a c x Y A C T I. destruct (BW a c A) as (c0 & A0 & T0 & F0 & [(-> & -> & _)|(N & [C0|(_ & C0 & _)])]); [| |congruence].
        -- intros YX d X CW. exfalso. apply (D2 ltac:(lia) x d); auto. now rewrite <- F0.
        -- apply PP. apply (mk_black a c0 x); auto; congruence.
      * intros a c x Y A C T NI I. destruct (BW a c A) as (c0 & A0 & T0 & F0 & [(-> & -> & _)|(N & [C0|(_ & C0 & _)])]); [| |congruence].
        -- exfalso. apply NI. rewrite WK. destruct (Z.eqb_spec (tag b) Weak_tag); [|congruence]. apply in_or_app. right. now left.
        -- apply PP. apply (mk_bweak a c0 x); auto; try congruence. intros Q. apply NI. rewrite WK. destruct (_ =? _); [apply in_or_app; now left|exact Q].
    + rewrite PM2. congruence.
  - intros a c c' A A' CW CN. exists b. split; [reflexivity|].
    assert (a <> v) as N by congruence.
    destruct (Z_lt_dec (tag b) No_scan_tag) as [T|T].
    + split; [exact T|]. destruct (in_dec Z.eq_dec a (fs b)) as [I|I]; [exact I|]. exfalso. apply CN.
      rewrite (O2 a ltac:(auto)), H1 in A'. destruct (Z.eqb_spec a v); [contradiction|]. congruence.
    + exfalso. apply CN. rewrite (O2 a ltac:(intros; lia)), H1 in A'. destruct (Z.eqb_spec a v); [contradiction|]. congruence.
  - intros c C. assert (c = b) as -> by congruence. auto.
Qed.

(** turns that change only the collector's own variables, still marking *)
Lemma walk_core s g : core s -> phase (gc s) = Phase_mark -> phase g = Phase_mark -> weak g = weak (gc s) -> stack_ok (set_gc s g) -> pure_ok (set_gc s g) ->
  (markhp g <> 0 -> exists n, In (chunk g, n) (chunks s) /\ limit g = chunk g + n /\ chunk g <= markhp g <= limit g) -> core (set_gc s g).
Proof.
  intros [W CL MK _] PM PM' WK S P WA. specialize (MK PM). pose proof (recol_gc s g) as R.
  assert (forall x, prot s x -> prot (set_gc s g) x) as PP by (intros x; apply prot_mono; cbn; eauto).
  constructor.
  - apply (recol_wf s); auto.
  - apply (recol_closed s); auto; [now apply recol_mark_sv|cbn; rewrite PM, PM'; tauto|cbn; now rewrite WK].
  - intros _. destruct MK. constructor; auto.
    + intros a I. cbn [gc set_gc] in I. rewrite WK in I. exact (mk_weak a I).
    + intros a b v Y A T I. apply PP. eapply mk_young; eauto.
    + intros a b v Y A C T I. apply PP. eapply mk_black; eauto.
    + intros a b v Y A C T NI I. cbn [gc set_gc] in NI. rewrite WK in NI. apply PP. eapply mk_bweak; eauto.
  - cbn. congruence.
Qed.

Lemma no_wprot s v : (forall a b, is_young a = false -> hget (hp s) a = Some b -> col b <> Gray) -> ~ wprot s v.
Proof. intros N P. induction P as [a b v Y A T I C|]; [now elim (N a b Y A)|auto]. Qed.

Lemma mark_ok s : inv s -> started s -> phase (gc s) = Phase_mark ->
  exists s', mark_step grow_ok free_size s = Ret s' /\ inv s' /\ recol s s' /\
    (forall a b b', hget (hp s) a = Some b -> hget (hp s') a = Some b' -> col b = White -> col b' <> White ->
       exists v c, hget (hp s) v = Some c /\ tag c < No_scan_tag /\ In a (fs c) /\ col c = Gray) /\
    (phase (gc s') = Phase_mark \/
     (phase (gc s') = Phase_weak /\ hp s' = hp s /\ (forall a b, is_young a = false -> hget (hp s) a = Some b -> sweep_hp (gc s') <= a - 8))).
Proof.
  intros [C RT] ST PM.
  assert ((exists s', mark_step grow_ok free_size s = Ret s' /\ core s' /\ recol s s' /\
    (forall a b b', hget (hp s) a = Some b -> hget (hp s') a = Some b' -> col b = White -> col b' <> White ->
       exists v c, hget (hp s) v = Some c /\ tag c < No_scan_tag /\ In a (fs c) /\ col c = Gray) /\
    (phase (gc s') = Phase_mark \/
     (phase (gc s') = Phase_weak /\ hp s' = hp s /\ (forall a b, is_young a = false -> hget (hp s) a = Some b -> sweep_hp (gc s') <= a - 8))))) as K.
  2:{ destruct K as (s' & Q1 & Q2 & Q3 & Q4). exists s'. split; [exact Q1|]. split; [|split; [exact Q3|exact Q4]]. constructor; [exact Q2|]. apply (recol_rtok s); auto. }
  destruct (gray (gc s)) as [|v l] eqn:GR.
  2:{ destruct (pop_ok s v l C ST PM GR) as (s' & Q1 & Q2 & Q3 & Q4 & Q5 & Q6). exists s'. split; [exact Q1|]. split; [exact Q2|]. split; [exact Q3|]. split; [|now left].
      intros a b b' A A' W W'. destruct (Q5 a b b' A A' W W') as (c & V & T & I). exists v, c. destruct (Q6 c V). auto. }
  pose proof C as [W CL MK _]. specialize (MK PM). pose proof MK as [SK PK WA WK MR MG MY MB MW].
  pose proof (w_lay _ _ _ _ W) as L.
  (* a turn that changes only the collector's variables *)
  assert (forall g, phase g = Phase_mark -> weak g = weak (gc s) -> stack_ok (set_gc s g) -> pure_ok (set_gc s g) ->
    (markhp g <> 0 -> exists n, In (chunk g, n) (chunks s) /\ limit g = chunk g + n /\ chunk g <= markhp g <= limit g) ->
    exists s', Ret (set_gc s g) = Ret s' /\ core s' /\ recol s s' /\
    (forall a b b', hget (hp s) a = Some b -> hget (hp s') a = Some b' -> col b = White -> col b' <> White ->
       exists v c, hget (hp s) v = Some c /\ tag c < No_scan_tag /\ In a (fs c) /\ col c = Gray) /\
    (phase (gc s') = Phase_mark \/
     (phase (gc s') = Phase_weak /\ hp s' = hp s /\ (forall a b, is_young a = false -> hget (hp s) a = Some b -> sweep_hp (gc s') <= a - 8)))) as FIN.
  { intros g P1 P2 P3 P4 P5. exists (set_gc s g). split; [reflexivity|]. split; [now apply walk_core|]. split; [apply recol_gc|]. split; [|now left].
    intros a b b' A A' CW CN. cbn [hp set_gc] in A'. congruence. }
  assert (forall g, gray g = [] -> gray_size g = gray_size (gc s) -> stack_ok (set_gc s g)) as SE.
  { intros g G1 G2. destruct SK. constructor; cbn [gc set_gc]; rewrite ?G1, ?G2; [intros x []|constructor| |exact so_size]. change (@zlen Z []) with 0. lia. }
  unfold mark_step. rewrite GR. destruct (Z.eqb_spec (markhp (gc s)) 0) as [MZ|MZ]; cbn [negb].
  - (* the walk is over *)
    unfold heap_start. destruct (chunks s) as [|[c n] cs] eqn:CH; [now elim (w_chunks _ _ _ _ W)|]. cbn [hd_error].
    assert (In (c, n) (chunks s) /\ forall c' n', In (c', n') (chunks s) -> c <= c') as [CI CF].
    { apply chunk_first; [apply L|intros c' n'; apply (chunk_pos s); exact L|now rewrite CH]. }
    assert (forall a b, is_young a = false -> hget (hp s) a = Some b -> c <= a - 8) as LOW.
    { intros a b Y A. destruct (block_chunk s a b L A Y) as (_ & c' & n' & Q1 & Q2 & _). specialize (CF c' n' Q1). lia. }
    pose proof (l_chunk _ _ _ _ L c n CI) as (CP & NP & _).
    destruct (pure (gc s)) eqn:PU; cbn [negb].
    + (* nothing is gray: on to the weak phase *)
      set (g := set_sweep _ _ _ _). exists (set_gc s g). split; [reflexivity|]. split; [|split; [apply recol_gc|]; split; [|right; split; [reflexivity|]; split; [reflexivity|exact LOW]]].
      2:{ intros a b b' A A' CW CN. cbn [hp set_gc] in A'. congruence. }
      assert (forall a b, is_young a = false -> hget (hp s) a = Some b -> col b <> Gray) as NG.
      { intros a b Y A G. destruct (PK PU a b Y A G) as [I|[I _]]; [rewrite GR in I; destruct I|congruence]. }
      assert (forall x, good s x -> prot s x -> good (set_gc s g) x) as GP.
      { intros x G P. destruct G as [Q|[Q|(b & B & _)]]; [now left|right; now left|]. right. right. exists b. split; [exact B|].
        destruct (is_young x) eqn:Y; [now left|]. right. right. left.
        pose proof (NG x b Y B). pose proof (w_blue _ _ _ _ W x b B Y). destruct (col b) eqn:CB; try congruence. now elim (no_wprot s x NG (P Y b B CB)). }
      assert (forall a, sv s a <-> exists b, hget (hp s) a = Some b) as SV by (intros a; now apply mark_sv).
      assert (forall a b, sv (set_gc s g) a -> hget (hp s) a = Some b -> is_young a = false /\ col b = Black) as SB.
      { intros a b (b2 & B2 & Q) B. cbn [hp set_gc] in B2. assert (b2 = b) as -> by congruence.
        assert (is_young a = false) as Y by (destruct (is_young a) eqn:Y; [|reflexivity]; rewrite (empty_young _ _ grow_ok outside s a W ST Y) in B; discriminate).
        split; [exact Y|]. destruct Q as [Q|[Q|[Q|Q]]]; [congruence|discriminate|exact Q|]. cbn in Q. specialize (LOW a b Y B). lia. }
      constructor.
      * apply (recol_wf s); [apply recol_gc|exact W].
      * destruct CL. constructor; cbn [roots globals set_gc hp gc].
        -- auto.
        -- auto.
        -- intros a b x S A T I. destruct (SB a b S A) as [Y CB]. apply GP; [|now apply (MB a b x)]. apply (cl_fields a b x); auto. apply SV. eauto.
        -- intros a b x S A T I. destruct (SB a b S A) as [Y CB].
           assert (good s x) as GX.
           { destruct (cl_weak a b x) as [Q|(Q & _)]; auto; [apply SV; eauto|congruence]. }
           destruct (in_dec Z.eq_dec a (weak (gc s))) as [J|J]; [right|left; apply GP; [exact GX|now apply (MW a b x)]].
           split; [reflexivity|]. split; [exact J|]. exact (good_some young_start young_end outside s x GX).
      * cbn. discriminate.
      * intros _. constructor; cbn; auto; try (now destruct SK).
        -- exists n. split; [exact CI|]. split; [reflexivity|lia].
        -- intros a b Y A Q. specialize (LOW a b Y A). lia.
    + (* something may have been lost: walk again *)
      apply FIN; cbn; auto.
      * intros _ a b Y A G. right. cbn. split; [lia|]. eapply LOW; eauto.
      * intros _. exists n. split; [now left|]. split; [reflexivity|lia].
  - destruct (WA MZ) as (n & CI & LI & RG). pose proof (l_chunk _ _ _ _ L _ n CI) as (CP & NP & _).
    destruct (Z.eqb_spec (markhp (gc s)) (limit (gc s))) as [EL|EL].
    + (* end of a chunk *)
      destruct (chunk_after (chunks s) (chunk (gc s))) as [[c2 n2]|] eqn:CA.
      * assert (In (c2, n2) (chunks s) /\ chunk (gc s) + n <= c2) as [CI2 C2].
        { pose proof (chunk_after_spec _ (l_sorted _ _ _ _ L) (fun c n => chunk_pos s c n L) _ n CI) as Q. rewrite CA in Q. tauto. }
        pose proof (l_chunk _ _ _ _ L _ n2 CI2) as (CP2 & NP2 & _).
        apply FIN; cbn; auto.
        -- intros PU a b Y A G. right. cbn. split; [lia|]. destruct (PK PU a b Y A G) as [I|[_ I]]; [rewrite GR in I; destruct I|].
           pose proof (past_chunk s _ n a b L CI A Y) as Q. rewrite CA in Q. lia.
        -- intros _. exists n2. split; [exact CI2|]. split; [reflexivity|lia].
      * apply FIN; cbn; auto.
        -- intros PU a b Y A G. exfalso. destruct (PK PU a b Y A G) as [I|[_ I]]; [rewrite GR in I; destruct I|].
           pose proof (past_chunk s _ n a b L CI A Y) as Q. rewrite CA in Q. lia.
        -- congruence.
    + destruct (hget (hp s) (markhp (gc s) + 8)) as [b|] eqn:B.
      * assert (is_young (markhp (gc s) + 8) = false) as Y.
        { destruct (is_young (markhp (gc s) + 8)) eqn:Y; [|reflexivity]. rewrite (empty_young _ _ grow_ok outside s _ W ST Y) in B. discriminate. }
        destruct (walk_block s _ n (markhp (gc s)) b L CI ltac:(lia) B Y) as (LN & LE & DJ).
        set (m' := markhp (gc s) + 8 * (1 + zlen (fs b))) in *.
        assert (forall gl, gl = (if color_eqb (col b) Gray then [markhp (gc s) + 8] else []) ->
          exists s', Ret (set_gc s (set_walk (set_gray (gc s) gl (gray_size (gc s)) (pure (gc s))) m' (chunk (gc s)) (limit (gc s)))) = Ret s' /\ core s' /\ recol s s' /\
    (forall a b b', hget (hp s) a = Some b -> hget (hp s') a = Some b' -> col b = White -> col b' <> White ->
       exists v c, hget (hp s) v = Some c /\ tag c < No_scan_tag /\ In a (fs c) /\ col c = Gray) /\
    (phase (gc s') = Phase_mark \/
     (phase (gc s') = Phase_weak /\ hp s' = hp s /\ (forall a b, is_young a = false -> hget (hp s) a = Some b -> sweep_hp (gc s') <= a - 8)))) as FIN2.
        { intros gl GL. apply FIN; auto.
          - destruct SK. constructor; cbn [gc set_gc set_walk set_gray gray gray_size hp]; rewrite ?GL.
            + intros x I. destruct (color_eqb_spec (col b) Gray) as [Q|Q]; [|destruct I]. destruct I as [<-|[]]. split; [exact Y|]. exists b. auto.
            + destruct (color_eqb (col b) Gray); [|constructor]. constructor; [intros []|constructor].
            + destruct (color_eqb (col b) Gray); [change (zlen [markhp (gc s) + 8]) with 1|change (@zlen Z []) with 0]; lia.
            + exact so_size.
          - intros PU a c YA A G. cbn [gc set_gc set_walk set_gray gray markhp hp pure] in *. rewrite GL. destruct (Z.eq_dec a (markhp (gc s) + 8)) as [->|N].
            + left. assert (c = b) as -> by congruence. rewrite G. now left.
            + right. split; [lia|]. destruct (PK PU a c YA A G) as [I|[_ I]]; [rewrite GR in I; destruct I|]. destruct (DJ a c A YA N); lia.
          - intros _. cbn. exists n. split; [exact CI|]. split; [exact LI|lia]. }
        destruct (color_eqb (col b) Gray) eqn:CG.
        -- unfold push_gray. rewrite GR. change (@zlen Z []) with 0. destruct (Z.ltb_spec 0 (gray_size (gc s))) as [_|Q]; [|destruct SK; lia]. cbn [bind].
           apply (FIN2 [markhp (gc s) + 8] eq_refl).
        -- cbn [bind]. specialize (FIN2 [] eq_refl).
           replace (set_walk (set_gray (gc s) [] (gray_size (gc s)) (pure (gc s))) m' (chunk (gc s)) (limit (gc s))) with (set_walk (gc s) m' (chunk (gc s)) (limit (gc s))) in FIN2
             by (destruct (gc s); cbn in *; subst; reflexivity). exact FIN2.
      * destruct (FB s (markhp (gc s)) (chunk (gc s)) n L CI ltac:(lia) B) as (F1 & F2 & F3).
        apply FIN; cbn [phase weak set_walk markhp chunk limit]; auto.
        -- intros PU a b Y A G. cbn [gc set_gc set_walk gray markhp hp pure] in *. destruct (PK PU a b Y A G) as [I|[_ I]]; [left; exact I|]. right. split; [lia|].
           specialize (F3 a b A Y). lia.
        -- intros _. exists n. split; [exact CI|]. split; [exact LI|lia].
Qed.
End Major.
