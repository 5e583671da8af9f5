(** The invariant of the whole allocator state, kept by alloc_shr, heap extension and sweeping. *)
From Coq Require Import Sorting.Permutation Sorting.Sorted.
From Verif Require Import Base Freelist_Model Freelist_Proofs Freelist_Alloc.

Section FL.
Variable Fl_head : Z.
Notation heap_ok := (heap_ok Fl_head).
Local Hint Resolve color_ok_White color_ok_Blue tag_ok_0 : core.

Definition sweep_ok (s : st) (T : list tile) : Prop :=
  gc_phase s <> Phase_mark -> exists n, In (chunk s, n) (chunks s) /\ limit s = chunk s + n /\ chunk s <= gc_sweep_hp s <= limit s /\
    (gc_sweep_hp s = limit s \/ exists w, In (gc_sweep_hp s, w) T).
Record inv (s : st) (T : list tile) (F : list Z) : Prop := {
  v_heap : heap_ok (m s) (chunks s) T F;
  v_ne : chunks s <> [];
  v_prev : In (fl_prev s) (Fl_head :: F);
  v_merge : In (fl_merge s) (Fl_head :: F);
  v_sweep : sweep_ok s T
}.

(** *** searching the list *)
Section Search.
Context {s : st} {T : list tile} {F : list Z} (H : heap_ok (m s) (chunks s) T F).
Lemma list_next F1 p G : Fl_head :: F = F1 ++ p :: G -> m s p = hd 0 G.
Proof. intros EF. pose proof (h_seg _ _ _ _ _ H) as S. rewrite EF in S. apply seg_app in S as [_ S]. cbn [seg] in S. apply S. Qed.
Lemma list_in F1 p c G : Fl_head :: F = F1 ++ p :: c :: G -> In c F.
Proof. intros EF. apply (free_of_split Fl_head F (F1 ++ [p]) c G (m s) (chunks s) T H); [now rewrite <- app_assoc|left; now destruct F1]. Qed.

Lemma search_end_ok wo : forall fuel F1 p G, Fl_head :: F = F1 ++ p :: G -> (length G < fuel)%nat ->
  (exists F1' last, search_end fuel s wo p (hd 0 G) = Ret (inl last) /\ Fl_head :: F = F1' ++ [last] /\ (forall x, In x G -> wosize_bp (m s) x < wo)) \/
  (exists F1' p' c G', search_end fuel s wo p (hd 0 G) = Ret (inr (allocate_block s (wo + 1) p' c)) /\ Fl_head :: F = F1' ++ p' :: c :: G' /\ wo <= wosize_bp (m s) c).
Proof.
  induction fuel as [|fuel IH]; intros F1 p G EF L; [lia|]. destruct G as [|c G]; cbn [hd search_end length] in *.
  - left. exists F1, p. split; [reflexivity|]. split; [assumption|]. intros x [].
  - pose proof (free_pos _ H c (list_in _ _ _ _ EF)). destruct (Z.eqb_spec c 0) as [|_]; [lia|].
    destruct (Z.geb_spec (wosize_bp (m s) c) wo) as [W|W].
    + right. exists F1, p, c, G. auto.
    + assert (EF2 : Fl_head :: F = (F1 ++ [p]) ++ c :: G) by now rewrite <- app_assoc.
      unfold next. rewrite (list_next _ _ _ EF2). destruct (IH (F1 ++ [p]) c G EF2 ltac:(lia)) as [(F1' & last & E & E2 & A)|(F1' & p' & c' & G' & E & E2 & A)].
      * left. exists F1', last. split; [assumption|]. split; [assumption|]. intros x [<-|X]; auto.
      * right. exists F1', p', c', G'. auto.
Qed.
Lemma search_start_ok wo : forall fuel F1 p G, Fl_head :: F = F1 ++ p :: G -> In (fl_prev s) (p :: G) -> (length G < fuel)%nat ->
  (search_start fuel s wo p (hd 0 G) = Ret None /\ (forall G1 G2, p :: G = G1 ++ fl_prev s :: G2 -> forall x, In x (tl (G1 ++ [fl_prev s])) -> wosize_bp (m s) x < wo)) \/
  (exists F1' p' c G', search_start fuel s wo p (hd 0 G) = Ret (Some (allocate_block s (wo + 1) p' c)) /\ Fl_head :: F = F1' ++ p' :: c :: G' /\ wo <= wosize_bp (m s) c).
Proof.
  induction fuel as [|fuel IH]; intros F1 p G EF I L; [lia|]. cbn [search_start].
  assert (ND : NoDup (p :: G)) by (pose proof (list_nodup _ H) as N; rewrite EF in N; now apply nodup_app in N as (_ & N & _)).
  destruct (Z.eqb_spec p (fl_prev s)) as [E|E].
  - left. split; [reflexivity|]. intros G1 G2 EG x X. destruct G1 as [|y G1]; [contradiction|]. cbn [app] in EG. injection EG as <- EG.
    inversion ND as [|? ? N _]. exfalso. apply N. rewrite EG, E. apply in_or_app. right. now left.
  - destruct I as [I|I]; [contradiction|]. destruct G as [|c G]; [contradiction|]. cbn [hd length] in *.
    destruct (Z.geb_spec (wosize_bp (m s) c) wo) as [W|W].
    + right. exists F1, p, c, G. auto.
    + assert (EF2 : Fl_head :: F = (F1 ++ [p]) ++ c :: G) by now rewrite <- app_assoc.
      unfold next. rewrite (list_next _ _ _ EF2). destruct (IH (F1 ++ [p]) c G EF2 I ltac:(lia)) as [(E2 & A)|(F1' & p' & c' & G' & E1 & E2 & A)].
      * left. split; [assumption|]. intros G1 G2 EG x X. destruct G1 as [|y G1]; [injection EG as X1 _; contradiction|].
        cbn [app tl] in EG, X. injection EG as -> EG. destruct G1 as [|z G1]; cbn [app] in EG, X.
        -- destruct X as [<-|[]]. injection EG as <- EG. assumption.
        -- injection EG as <- EG. destruct X as [<-|X]; [assumption|]. apply (A (c :: G1) G2); [cbn [app]; now f_equal|]. exact X.
      * right. exists F1', p', c', G'. auto.
Qed.
Lemma find_place_ok bp : forall fuel F1 p G, Fl_head :: F = F1 ++ p :: G -> (length G < fuel)%nat ->
  exists F1' p' G', find_place fuel (m s) bp p (hd 0 G) = Ret (p', hd 0 G') /\ Fl_head :: F = F1' ++ p' :: G' /\
    (p' = p \/ p' < bp) /\ match G' with [] => True | c :: _ => bp <= c end.
Proof.
  induction fuel as [|fuel IH]; intros F1 p G EF L; [lia|]. destruct G as [|c G]; cbn [hd find_place length] in *.
  - exists F1, p, []. cbn. auto.
  - pose proof (free_pos _ H c (list_in _ _ _ _ EF)). destruct (Z.eqb_spec c 0) as [|_]; [lia|]. cbn [negb andb].
    destruct (Z.ltb_spec c bp) as [W|W].
    + assert (EF2 : Fl_head :: F = (F1 ++ [p]) ++ c :: G) by now rewrite <- app_assoc.
      unfold next. rewrite (list_next _ _ _ EF2). destruct (IH (F1 ++ [p]) c G EF2 ltac:(lia)) as (F1' & p' & G' & E1 & E2 & A & B).
      exists F1', p', G'. split; [assumption|]. split; [assumption|]. split; [|assumption]. right. destruct A as [->|A]; [assumption|assumption].
    + exists F1, p, (c :: G). auto.
Qed.
End Search.

Lemma heap_set_last s x T F : heap_ok (m s) (chunks s) T F -> heap_ok (m (set_last s x)) (chunks (set_last s x)) T F.
Proof. exact id. Qed.

(** fl_allocate finds a block, or there is none and fl_last is the last block *)
Lemma fl_allocate_spec fuel s T F wo : inv s T F -> (length F < fuel)%nat ->
  (exists F1 p c G s0, (s0 = s \/ exists last, s0 = set_last s last) /\
     (let '(hp, s') := allocate_block s0 (wo + 1) p c in fl_allocate Fl_head fuel s wo = Ret (Some hp, s')) /\
     Fl_head :: F = F1 ++ p :: c :: G /\ wo <= wosize_bp (m s) c) \/
  (exists F1 last, fl_allocate Fl_head fuel s wo = Ret (None, set_last s last) /\ Fl_head :: F = F1 ++ [last] /\ forall x, In x F -> wosize_bp (m s) x < wo).
Proof.
  intros I L. pose proof (v_heap _ _ _ I) as H.
  assert (LF : forall F1 p G, Fl_head :: F = F1 ++ p :: G -> (length G < fuel)%nat).
  { intros F1 p G E. apply (f_equal (@length _)) in E. rewrite app_length in E. cbn in E. lia. }
  destruct (in_split _ _ (v_prev _ _ _ I)) as (F1 & G & EF).
  remember (fl_allocate Fl_head fuel s wo) as res eqn:ER. unfold fl_allocate, next in ER. rewrite (list_next H _ _ _ EF) in ER.
  destruct (search_end_ok H wo fuel F1 (fl_prev s) G EF (LF _ _ _ EF)) as [(F1' & last & E1 & E2 & A)|(F1' & p' & c & G' & E1 & E2 & A)]; rewrite E1 in ER; cbn [bind] in ER.
  - pose proof (heap_set_last s last T F H) as H2.
    change (m (set_last s last) Fl_head) with (m s Fl_head) in ER. rewrite (list_next H [] Fl_head F eq_refl) in ER.
    destruct (search_start_ok H2 wo fuel [] Fl_head F eq_refl (v_prev _ _ _ I) (LF [] Fl_head F eq_refl)) as [(E3 & B)|(F1'' & p' & c & G' & E3 & E4 & B)]; rewrite E3 in ER; cbn [bind] in ER.
    + right. exists F1', last. split; [exact ER|]. split; [assumption|]. intros x X.
      assert (X' : In x (Fl_head :: F)) by now right. rewrite EF in X'. apply in_app_or in X'.
      assert (Y : In x (tl (F1 ++ [fl_prev s])) \/ In x G).
      { destruct F1 as [|y F1]; cbn [app tl] in *.
        - injection EF as EF0 EF. right. now rewrite <- EF.
        - injection EF as EF0 EF. rewrite EF in X. apply in_app_or in X as [X|[X|X]].
          + left. apply in_or_app. now left.
          + left. apply in_or_app. right. now left.
          + now right. }
      destruct Y as [Y|Y]; [|auto]. apply (B F1 G EF x Y).
    + left. exists F1'', p', c, G', (set_last s last). split; [right; now exists last|]. split; [|split; assumption].
      destruct (allocate_block (set_last s last) (wo + 1) p' c). exact ER.
  - left. exists F1', p', c, G', s. split; [now left|]. split; [|split; assumption]. destruct (allocate_block s (wo + 1) p' c). exact ER.
Qed.

(** *** what the program sees: the blocks that are not free *)
Definition live (m : mem) (T : list tile) (h w : Z) : Prop := In (h, w) T /\ color_hd (m h) <> Blue /\ 1 <= w.

(** *** order and coalescing (property C10) *)
Record ord (s : st) (T : list tile) (F : list Z) : Prop := {
  o_chunks : StronglySorted (fun c d : Z * Z => fst c < fst d) (chunks s);
  o_sorted : StronglySorted Z.lt F;
  o_coal : forall h w w', In (h, w) T -> In (h + w + 1, w') T -> color_hd (m s h) = Blue -> color_hd (m s (h + w + 1)) = Blue -> False;
  o_merge : gc_phase s <> Phase_mark -> exists A B, F = A ++ B /\ fl_merge s = last A Fl_head /\
     (forall x, In x A -> x - 1 < gc_sweep_hp s) /\ (forall x, In x B -> gc_sweep_hp s <= x - 1)
}.

Lemma last_app_cons {A} (l : list A) x l' d : last (l ++ x :: l') d = last (x :: l') d.
Proof. induction l as [|a l IH]; [reflexivity|]. cbn [app]. rewrite <- IH. destruct l; reflexivity. Qed.
Lemma last_cons_default {A} (l : list A) x d : last (x :: l) d = last l x.
Proof. revert x d. induction l as [|a l IH]; intros x d; [reflexivity|]. change (last (x :: a :: l) d) with (last (a :: l) d). rewrite !IH. reflexivity. Qed.
Lemma last_in_cons {A} (l : list A) d : In (last l d) (d :: l).
Proof. revert d. induction l as [|a l IH]; intros d; [now left|]. rewrite last_cons_default. right. apply IH. Qed.

Lemma remove_AB A B F1 p c G F' : Fl_head :: A ++ B = F1 ++ p :: c :: G -> NoDup (Fl_head :: A ++ B) -> Fl_head :: F' = F1 ++ p :: G ->
  exists A' B', F' = A' ++ B' /\ last A' Fl_head = (if last A Fl_head =? c then p else last A Fl_head) /\ incl A' A /\ incl B' B.
Proof.
  intros E ND E'. assert (E0 : (Fl_head :: A) ++ B = (F1 ++ [p]) ++ c :: G) by (rewrite <- app_assoc; exact E).
  apply app_eq_app in E0 as (l & [(E1 & E2)|(E1 & E2)]).
  - destruct l as [|c' l].
    + cbn [app] in E2. rewrite app_nil_r in E1. subst B. exists A, G.
      assert (F' = A ++ G). { assert (X : Fl_head :: F' = (Fl_head :: A) ++ G) by (rewrite E1, <- app_assoc; exact E'). now injection X. }
      split; [assumption|]. split; [|split; [apply incl_refl|intros x X; now right]].
      destruct (Z.eqb_spec (last A Fl_head) c) as [X|X]; [|reflexivity]. exfalso. pose proof (last_in_cons A Fl_head) as Y. rewrite X in Y.
      change (NoDup ((Fl_head :: A) ++ c :: G)) in ND. apply nodup_app in ND as (_ & _ & ND). apply (ND c); [assumption|now left].
    + cbn [app] in E2. injection E2 as <- ->.
      assert (EX : exists A', Fl_head :: A' = (F1 ++ [p]) ++ l) by (destruct F1 as [|y F1]; cbn [app] in E1 |- *; injection E1 as -> E1; eauto).
      destruct EX as (A' & EA). exists A', B.
      assert (F' = A' ++ B). { assert (X : Fl_head :: F' = (Fl_head :: A') ++ B) by (rewrite EA, <- !app_assoc; exact E'). now injection X. }
      split; [assumption|].
      assert (L1 : last A Fl_head = last l c) by (rewrite <- (last_cons_default A Fl_head 0), E1, last_app_cons; apply last_cons_default).
      assert (L2 : last A' Fl_head = last l p) by (rewrite <- (last_cons_default A' Fl_head 0), EA, <- app_assoc; cbn [app]; rewrite last_app_cons; apply last_cons_default).
      assert (NDA : NoDup (Fl_head :: A)) by (change (NoDup ((Fl_head :: A) ++ B)) in ND; now apply nodup_app in ND as (ND & _ & _)).
      split; [|split; [|apply incl_refl]].
      * rewrite L1, L2. destruct l as [|y l]; [cbn [last]; now rewrite Z.eqb_refl|].
        destruct (Z.eqb_spec (last (y :: l) c) c) as [X|X].
        -- exfalso. rewrite last_cons_default in X. pose proof (last_in_cons l y) as Y. rewrite X in Y. rewrite E1 in NDA. apply nodup_app in NDA as (_ & N & _). inversion N. contradiction.
        -- now rewrite !last_cons_default.
      * intros x X. assert (Y : In x (Fl_head :: A)).
        { rewrite E1. assert (Z0 : In x (Fl_head :: A')) by now right. rewrite EA in Z0. apply in_app_or in Z0 as [Z0|Z0]; apply in_or_app; [now left|right; now right]. }
        destruct Y as [Y|Y]; [|assumption]. subst x. exfalso.
        assert (N : NoDup (Fl_head :: A')). { rewrite EA. rewrite E1 in NDA. now apply NoDup_remove_1 in NDA. } inversion N. contradiction.
  - subst B. exists A, (l ++ G).
    assert (F' = A ++ l ++ G). { assert (X : Fl_head :: F' = (Fl_head :: A) ++ l ++ G) by (rewrite app_assoc, <- E1, <- app_assoc; exact E'). now injection X. }
    split; [assumption|]. split; [|split; [apply incl_refl|intros x X; apply in_app_or in X as [X|X]; apply in_or_app; [now left|right; now right]]].
    destruct (Z.eqb_spec (last A Fl_head) c) as [X|X]; [|reflexivity]. exfalso. pose proof (last_in_cons A Fl_head) as Y. rewrite X in Y.
    change (NoDup ((Fl_head :: A) ++ l ++ c :: G)) in ND. apply nodup_app in ND as (_ & _ & ND). apply (ND c); [assumption|apply in_or_app; right; now left].
Qed.
Lemma sorted_remove F1 p c G F F' : Fl_head :: F = F1 ++ p :: c :: G -> Fl_head :: F' = F1 ++ p :: G -> StronglySorted Z.lt F -> StronglySorted Z.lt F'.
Proof.
  intros E E' S.
  assert (R : forall l1 l2, StronglySorted Z.lt (l1 ++ c :: l2) -> StronglySorted Z.lt (l1 ++ l2)).
  { clear. induction l1 as [|a l1 IH]; cbn [app]; intros l2 S; inversion S as [|? ? S1 S2]; subst; [assumption|]. constructor; [auto|].
    rewrite Forall_forall in *. intros x X. apply S2. apply in_app_or in X as [X|X]; apply in_or_app; [now left|right; now right]. }
  destruct F1 as [|y F1]; cbn [app] in E, E'; injection E as -> ->; injection E' as ->.
  - apply (R [] G S).
  - replace (F1 ++ p :: G) with ((F1 ++ [p]) ++ G) by now rewrite <- app_assoc. apply R. now rewrite <- app_assoc.
Qed.

(** taking a block *)
Lemma take_ok s T F F1 p c G wo s0 hp s' t col s'' : inv s T F -> (s0 = s \/ exists last, s0 = set_last s last) -> Fl_head :: F = F1 ++ p :: c :: G ->
  1 <= wo -> wo <= wosize_bp (m s) c -> allocate_block s0 (wo + 1) p c = (hp, s') -> tag_ok t -> color_ok col -> col <> Blue ->
  s'' = set_m s' (wr (m s') hp (make_header wo t col)) ->
  exists T' F', inv s'' T' F' /\ (forall h w, live (m s'') T' h w <-> live (m s) T h w \/ (h = hp /\ w = wo)) /\
    (forall h w x, live (m s) T h w -> h <= x <= h + w -> m s'' x = m s x) /\ (forall w, ~ live (m s) T hp w) /\ m s'' hp = make_header wo t col /\
    chunks s'' = chunks s /\ gc_phase s'' = gc_phase s /\ gc_sweep_hp s'' = gc_sweep_hp s /\ (ord s T F -> ord s'' T' F').
Proof.
  intros I ES EF W1 W EA Ht Hc NB Es. pose proof (v_heap _ _ _ I) as H.
  assert (CF : In c F) by (eapply list_in; eauto).
  destruct (free_tile _ H _ CF) as (w & A & Ww & CB).
  assert (SZ : wosize_bp (m s) c = w) by (unfold wosize_bp, hd_bp; now apply (tile_size _ H)). rewrite SZ in W.
  assert (Q : m s0 = m s /\ chunks s0 = chunks s /\ gc_sweep_hp s0 = gc_sweep_hp s /\ chunk s0 = chunk s /\ limit s0 = limit s /\ gc_phase s0 = gc_phase s /\ fl_merge s0 = fl_merge s)
    by (destruct ES as [->|(last & ->)]; cbn; repeat split).
  destruct Q as (Q1 & Q2 & Q3 & Q4 & Q5 & Q6 & Q7).
  assert (H0 : heap_ok (m s0) (chunks s0) T F) by (rewrite Q1, Q2; exact H).
  destruct (allocate_block_ok _ s0 T F F1 p c G wo w H0 EF A ltac:(lia) hp s' EA) as (Ehp & P1 & P2 & P3 & P4 & P5 & P6 & P7 & P8 & P9).
  destruct (P9 t col (m s'') Ht Hc NB ltac:(now rewrite Es)) as (T' & F' & R & PR & HT' & CASES & CH). clear P9.
  rewrite Q2 in HT'. rewrite Q1 in CH.
  assert (Mhp : m s'' hp = make_header wo t col) by (rewrite Es; apply wr_same).
  assert (Chp : color_hd (m s'' hp) <> Blue) by (rewrite Mhp, color_make; auto; lia).
  assert (RT : forall h v, In (h, v) T <-> (h, v) = (c - 1, w) \/ In (h, v) R).
  { intros h v. split; intros X.
    - apply (Permutation_in _ PR) in X as [X|X]; auto.
    - apply (Permutation_in _ (Permutation_sym PR)). destruct X; [left; auto|now right]. }
  assert (PL : In p (Fl_head :: F)) by (rewrite EF, in_app_iff; cbn; tauto).
  assert (RD : forall h v, In (h, v) R -> c - 1 + w < h \/ h + v < c - 1).
  { intros h v B. assert (B' : In (h, v) T) by (apply RT; now right). destruct (h_dis _ _ _ _ _ H _ _ _ _ A B') as [[X1 X2]|X]; [|lia].
    pose proof (Permutation_NoDup PR (h_nodup _ _ _ _ _ H)) as N. inversion N as [|? ? N1 _]. exfalso. apply N1. now rewrite X1, X2. }
  assert (RH : forall h v, In (h, v) R -> m s'' h = m s h).
  { intros h v B. destruct (Z.eq_dec (m s'' h) (m s h)) as [X|X]; [assumption|]. exfalso. apply CH in X. assert (B' : In (h, v) T) by (apply RT; now right).
    pose proof (tile_pos _ H _ _ B'). destruct X as [X|X].
    - now apply (link_not_hdr _ H p h v PL B').
    - apply RD in B. lia. }
  assert (LV : forall h v, live (m s) T h v -> In (h, v) R).
  { intros h v (X & Y & _). apply RT in X as [X|X]; [|assumption]. injection X as -> ->. contradiction. }
  assert (KEEP : forall h v, In (h, v) T -> exists v', In (h, v') T').
  { intros h v X. apply RT in X. destruct CASES as [(X1 & -> & _)|[(X1 & -> & _)|(X1 & -> & _)]].
    - exists v. destruct X as [X|X]; [left; injection X as -> ->; now rewrite X1|now right].
    - destruct X as [X|X]; [exists 0; injection X as -> _; now left|exists v; right; now right].
    - destruct X as [X|X]; [eexists; injection X as -> _; now left|exists v; right; now right]. }
  assert (FI : forall x, In x (Fl_head :: F') -> In x (Fl_head :: F)).
  { intros x X. destruct CASES as [(_ & _ & X1)|[(_ & _ & X1 & _)|(_ & _ & X1 & _)]]; rewrite ?X1 in X; try (subst; assumption); rewrite EF; apply in_app_or in X; apply in_or_app; cbn in X |- *; tauto. }
  exists T', F'. split; [|split; [|split; [|split; [|split; [exact Mhp|split; [|split; [|split; [|]]]]]]]].
  - constructor.
    + rewrite Es in HT' |- *. cbn [m chunks set_m]. now rewrite P3, Q2.
    + rewrite Es. cbn [chunks set_m]. rewrite P3, Q2. apply I.
    + rewrite Es. cbn [fl_prev set_m]. rewrite P1. destruct CASES as [(_ & _ & ->)|[(_ & _ & -> & _)|(_ & _ & -> & _)]]; try (apply in_or_app; right; now left). assumption.
    + rewrite Es. cbn [fl_merge set_m]. rewrite P8, Q7. pose proof (v_merge _ _ _ I) as VM. 
      destruct CASES as [(X1 & _ & X2)|[(X1 & _ & X2 & _)|(X1 & _ & X2 & _)]].
      * replace (w <? wo + 2) with true by (symmetry; apply Z.ltb_lt; lia). rewrite X2. cbn [andb]. destruct (Z.eqb_spec (fl_merge s) c); [apply in_or_app; right; now left|].
        rewrite EF in VM. apply in_app_or in VM. apply in_or_app. cbn in VM |- *. destruct VM as [|[|[|]]]; auto. congruence.
      * replace (w <? wo + 2) with true by (symmetry; apply Z.ltb_lt; lia). rewrite X2. cbn [andb]. destruct (Z.eqb_spec (fl_merge s) c); [apply in_or_app; right; now left|].
        rewrite EF in VM. apply in_app_or in VM. apply in_or_app. cbn in VM |- *. destruct VM as [|[|[|]]]; auto. congruence.
      * replace (w <? wo + 2) with false by (symmetry; apply Z.ltb_ge; lia). cbn [andb]. now rewrite X2.
    + intros PH. rewrite Es in PH |- *. cbn [gc_phase chunk chunks limit gc_sweep_hp set_m] in PH |- *. rewrite P7, Q6 in PH. rewrite P3, P4, P5, P6, Q2, Q3, Q4, Q5.
      destruct (v_sweep _ _ _ I PH) as (n & X1 & X2 & X3 & X4). exists n. split; [assumption|]. split; [assumption|]. split; [assumption|].
      destruct X4 as [X4|(v & X4)]; [now left|]. right. eauto.
  - intros h v. split.
    + intros (X & Y & Z0). assert (OLD : In (h, v) R -> live (m s) T h v).
      { intros B. split; [apply RT; now right|]. split; [now rewrite <- (RH _ _ B)|assumption]. }
      destruct CASES as [(X1 & -> & _)|[(X1 & -> & _ & X2)|(X1 & -> & _ & X2)]].
      * destruct X as [X|X]; [|left; auto]. injection X as <- <-. right. lia.
      * destruct X as [X|[X|X]]; [injection X as <- <-; lia| |left; auto]. injection X as <- <-. right. lia.
      * destruct X as [X|[X|X]]; [| |left; auto].
        -- injection X as <- <-. exfalso. apply Y. rewrite X2. apply color_make; auto; lia.
        -- injection X as <- <-. now right.
    + intros [X|[-> ->]].
      * pose proof (LV _ _ X) as B. destruct X as (_ & Y & Z0). split; [|split; [now rewrite (RH _ _ B)|assumption]].
        destruct CASES as [(_ & -> & _)|[(_ & -> & _)|(_ & -> & _)]]; [now right|right; now right|right; now right].
      * split; [|split; [assumption|lia]]. destruct CASES as [(X1 & -> & _)|[(X1 & -> & _)|(_ & -> & _)]].
        -- left. f_equal. lia.
        -- right. left. f_equal. lia.
        -- right. now left.
  - intros h v x X Hx. destruct (Z.eq_dec (m s'' x) (m s x)) as [Y|Y]; [assumption|]. exfalso. pose proof (LV _ _ X) as B. apply RD in B as RB.
    apply CH in Y as [->|Y]; [|lia]. destruct X as (X & Xc & _). destruct PL as [PL|PL]; [pose proof (tile_head _ H _ _ X); lia|].
    destruct (free_tile _ H _ PL) as (v' & B' & V' & C'). destruct (h_dis _ _ _ _ _ H _ _ _ _ X B') as [[E1 E2]|E1]; [subst; contradiction|lia].
  - intros v X. pose proof (LV _ _ X) as B. apply RD in B. destruct X as (X & _ & V). lia.
  - rewrite Es. cbn [chunks set_m]. congruence.
  - rewrite Es. cbn [gc_phase set_m]. congruence.
  - rewrite Es. cbn [gc_sweep_hp set_m]. congruence.
  - intros O. assert (NBc : w < wo + 2 -> color_hd (m s'' (c - 1)) <> Blue).
    { intros X. destruct CASES as [(X1 & _)|[(X1 & _ & _ & X2)|(X1 & _)]]; [| |lia].
      - replace (c - 1) with hp by lia. assumption.
      - rewrite X2, color_make by (auto; lia). easy. }
    constructor.
    + rewrite Es. cbn [chunks set_m]. rewrite P3, Q2. apply O.
    + destruct CASES as [(_ & _ & X1)|[(_ & _ & X1 & _)|(_ & _ & -> & _)]]; [eapply sorted_remove; eauto; apply O|eapply sorted_remove; eauto; apply O|apply O].
    + (* blue tiles of T' are blue tiles of T, possibly shortened *)
      assert (BL : forall h v, In (h, v) T' -> color_hd (m s'' h) = Blue -> (In (h, v) T /\ color_hd (m s h) = Blue) \/ (h = c - 1 /\ h + v + 1 = hp)).
      { intros h v X Y. assert (OLD : In (h, v) R -> (In (h, v) T /\ color_hd (m s h) = Blue) \/ (h = c - 1 /\ h + v + 1 = hp)).
        { intros B. left. split; [apply RT; now right|]. now rewrite <- (RH _ _ B). }
        destruct CASES as [(X1 & -> & _)|[(X1 & -> & _ & X2)|(X1 & -> & _ & X2)]].
        - destruct X as [X|X]; [|auto]. injection X as <- <-. exfalso. apply NBc; [lia|assumption].
        - destruct X as [X|[X|X]]; [| |auto].
          + injection X as <- <-. exfalso. apply NBc; [lia|assumption].
          + injection X as <- <-. exfalso. apply Chp. now replace hp with c by lia.
        - destruct X as [X|[X|X]]; [| |auto].
          + injection X as <- <-. right. lia.
          + injection X as <- <-. contradiction. }
      intros h v v' X1 X2 C1 C2. destruct (BL _ _ X1 C1) as [[Y1 Y2]|[Y1 Y2]].
      * destruct (BL _ _ X2 C2) as [[Z1 Z2]|[Z1 Z2]]; [exact (o_coal _ _ _ O h v v' Y1 Z1 Y2 Z2)|]. apply (o_coal _ _ _ O h v w Y1); [rewrite Z1; exact A|exact Y2|rewrite Z1; exact CB].
      * rewrite Y2 in C2. contradiction.
    + intros PH. rewrite Es in PH |- *. cbn [gc_phase gc_sweep_hp fl_merge set_m] in PH |- *. rewrite P7, Q6 in PH. rewrite P8, P4, Q3, Q7.
      destruct (o_merge _ _ _ O PH) as (A1 & B1 & E1 & E2 & E3 & E4).
      assert (RM : Fl_head :: F' = F1 ++ p :: G -> w < wo + 2 -> exists A B, F' = A ++ B /\ (if (w <? wo + 2) && (fl_merge s =? c) then p else fl_merge s) = last A Fl_head /\
         (forall x, In x A -> x - 1 < gc_sweep_hp s) /\ (forall x, In x B -> gc_sweep_hp s <= x - 1)).
      { intros X1 X2. pose proof (list_nodup _ H) as ND. rewrite E1 in EF, ND. destruct (remove_AB A1 B1 F1 p c G F' EF ND X1) as (A' & B' & Y1 & Y2 & Y3 & Y4).
        exists A', B'. split; [assumption|]. split; [|split; auto].
        replace (w <? wo + 2) with true by (symmetry; apply Z.ltb_lt; lia). cbn [andb]. rewrite E2. now symmetry. }
      destruct CASES as [(X1 & _ & X2)|[(X1 & _ & X2 & _)|(X1 & _ & X2 & _)]]; [apply RM; [assumption|lia]|apply RM; [assumption|lia]|].
      exists A1, B1. rewrite X2. replace (w <? wo + 2) with false by (symmetry; apply Z.ltb_ge; lia). cbn [andb]. auto.
Qed.
End FL.
