(** Heap extension, alloc_shr and sweeping keep the invariant. *)
From Coq Require Import Sorting.Permutation Sorting.Sorted.
From Verif Require Import Base Freelist_Model Freelist_Proofs Freelist_Alloc Freelist_Inv.

Section FL.
Variable Fl_head : Z.
Notation heap_ok := (heap_ok Fl_head).
Notation inv := (inv Fl_head).
Notation ord := (ord Fl_head).
Local Hint Resolve color_ok_White color_ok_Blue tag_ok_0 : core.

(** where malloc may put a chunk: disjoint from the sentinel and from the other chunks with their heads *)
Definition fresh (s : st) (a n : Z) : Prop :=
  1 < a /\ ~ (a <= Fl_head < a + n) /\ ~ (a <= Fl_head - 1 < a + n) /\ forall a' n', In (a', n') (chunks s) -> a + n < a' \/ a' + n' < a.

Lemma insert_chunk_perm c cs : Permutation (insert_chunk c cs) (c :: cs).
Proof. induction cs as [|d cs IH]; cbn; [reflexivity|]. destruct (fst d <? fst c); [|reflexivity]. rewrite IH. apply perm_swap. Qed.
Lemma insert_chunk_sorted c cs : (forall d, In d cs -> fst d <> fst c) -> StronglySorted (fun c d : Z * Z => fst c < fst d) cs ->
  StronglySorted (fun c d : Z * Z => fst c < fst d) (insert_chunk c cs).
Proof.
  intros D S. induction S as [|d cs S IH A]; cbn.
  - repeat constructor.
  - destruct (Z.ltb_spec (fst d) (fst c)) as [L|L].
    + constructor; [apply IH; intros; apply D; now right|]. rewrite Forall_forall in *. intros x X.
      apply (Permutation_in _ (insert_chunk_perm c cs)) in X as [<-|X]; auto.
    + assert (fst c < fst d) by (specialize (D d (or_introl eq_refl)); lia).
      constructor; [now constructor|]. constructor; [assumption|]. rewrite Forall_forall in *. intros x X. specialize (A x X). lia.
Qed.

Lemma insert_AB A B F1 p bp G F' : Fl_head :: A ++ B = F1 ++ p :: G -> NoDup (Fl_head :: A ++ B) -> Fl_head :: F' = F1 ++ p :: bp :: G ->
  (F' = A ++ bp :: B /\ p = last A Fl_head) \/
  (exists A', F' = A' ++ B /\ last A' Fl_head = last A Fl_head /\ p <> last A Fl_head /\ (forall x, In x A' -> In x A \/ x = bp) /\ G <> [] /\ In (hd 0 G) A) \/
  (exists B', F' = A ++ B' /\ In p B /\ p <> last A Fl_head /\ forall x, In x B' -> In x B \/ x = bp).
Proof.
  intros E ND E'. assert (E0 : (Fl_head :: A) ++ B = (F1 ++ [p]) ++ G) by (rewrite <- app_assoc; exact E).
  assert (FIRST : Fl_head :: A = F1 ++ [p] -> B = G -> F' = A ++ bp :: B /\ p = last A Fl_head).
  { intros X ->. split.
    - assert (Y : Fl_head :: F' = (Fl_head :: A) ++ bp :: G) by (rewrite X, <- app_assoc; exact E'). now injection Y.
    - rewrite <- (last_cons_default A Fl_head 0), X, last_app_cons. reflexivity. }
  change (NoDup ((Fl_head :: A) ++ B)) in ND. apply nodup_app in ND as (N1 & N2 & N3).
  apply app_eq_app in E0 as (l & [(E1 & E2)|(E1 & E2)]).
  - destruct l as [|y l].
    + left. apply FIRST; [now rewrite app_nil_r in E1|now symmetry].
    + right. left. subst G.
      assert (EX : exists A', Fl_head :: A' = (F1 ++ [p]) ++ bp :: y :: l) by (destruct F1 as [|z F1]; cbn [app] in E1 |- *; injection E1 as -> E1; eauto).
      destruct EX as (A' & EA). exists A'.
      assert (L1 : last A Fl_head = last l y) by (rewrite <- (last_cons_default A Fl_head 0), E1, last_app_cons; apply last_cons_default).
      assert (NDA' : NoDup ((F1 ++ [p]) ++ y :: l)) by (rewrite <- E1; exact N1).
      split; [|split; [|split; [|split; [|split]]]].
      * assert (Y : Fl_head :: F' = (Fl_head :: A') ++ B) by (rewrite EA, <- !app_assoc; exact E'). now injection Y.
      * rewrite L1. rewrite <- (last_cons_default A' Fl_head 0), EA, last_app_cons. rewrite !last_cons_default. reflexivity.
      * rewrite L1. intros X. apply nodup_app in NDA' as (_ & _ & N). apply (N p); [apply in_or_app; right; now left|]. rewrite X. apply last_in_cons.
      * intros x X. assert (HA' : ~ In Fl_head A' \/ bp = Fl_head).
        { destruct (Z.eq_dec bp Fl_head) as [|Ne]; [now right|]. left. intros Y.
          destruct F1 as [|z F1]; cbn [app] in EA, E1; injection EA as EA0 EA; injection E1 as E10 E1; subst A'; inversion N1 as [|? ? Z1 Z2]; apply Z1; rewrite E1.
          - destruct Y as [Y|Y]; [congruence|assumption].
          - apply in_app_or in Y as [Y|[Y|Y]]; [apply in_or_app; now left|congruence|apply in_or_app; now right]. }
        assert (Y : In x (Fl_head :: A')) by now right. rewrite EA in Y.
        assert (Z0 : x = bp \/ In x (Fl_head :: A)).
        { rewrite E1. apply in_app_or in Y as [Y|[Y|Y]]; [right; apply in_or_app; now left|left; auto|right; apply in_or_app; now right]. }
        destruct Z0 as [Z0|[Z0|Z0]]; [now right| |now left]. subst x. destruct HA' as [HA'|HA']; [contradiction|right; auto].
      * discriminate.
      * cbn [hd app]. assert (Y : In y (Fl_head :: A)) by (rewrite E1; apply in_or_app; right; now left). destruct Y as [Y|Y]; [|assumption]. exfalso.
        subst y. destruct F1 as [|z F1]; cbn [app] in NDA', E1; injection E1 as E10 E1; subst; inversion NDA' as [|? ? Z1 Z2]; apply Z1; [now left|apply in_or_app; right; now left].
  - destruct l as [|y l].
    + left. rewrite app_nil_r in E1. apply FIRST; [now symmetry|assumption].
    + right. right. subst B. exists ((y :: l) ++ bp :: G).
      assert (PB : In p (y :: l)).
      { assert (X : last (F1 ++ [p]) 0 = last ((Fl_head :: A) ++ y :: l) 0) by now rewrite E1. rewrite !last_app_cons in X. change (p = last (y :: l) 0) in X. rewrite X, last_cons_default. apply last_in_cons. }
      split; [|split; [|split]].
      * assert (Y : Fl_head :: F' = (Fl_head :: A) ++ (y :: l) ++ bp :: G) by (rewrite app_assoc, <- E1, <- app_assoc; exact E'). now injection Y.
      * apply in_or_app. now left.
      * intros X. apply (N3 p); [rewrite X; apply last_in_cons|apply in_or_app; now left].
      * intros x X. apply in_app_or in X as [X|[X|X]]; [left; apply in_or_app; now left|right; auto|left; apply in_or_app; now right].
Qed.
Lemma sorted_app_l {A} (R : A -> A -> Prop) l1 l2 : StronglySorted R (l1 ++ l2) -> StronglySorted R l1 /\ StronglySorted R l2 /\ forall x y, In x l1 -> In y l2 -> R x y.
Proof.
  induction l1 as [|a l1 IH]; cbn; intros S.
  - split; [constructor|]. split; [assumption|]. intros ? ? [].
  - inversion S as [|? ? S1 S2]; subst. destruct (IH S1) as (H1 & H2 & H3). rewrite Forall_forall in S2. split; [|split; [assumption|]].
    + constructor; [assumption|]. rewrite Forall_forall. intros x X. apply S2. apply in_or_app. now left.
    + intros x y [<-|X] Y; [apply S2; apply in_or_app; now right|auto].
Qed.
Lemma sorted_app_r {A} (R : A -> A -> Prop) l1 l2 : StronglySorted R l1 -> StronglySorted R l2 -> (forall x y, In x l1 -> In y l2 -> R x y) -> StronglySorted R (l1 ++ l2).
Proof.
  induction l1 as [|a l1 IH]; cbn; intros S1 S2 C; [assumption|]. inversion S1 as [|? ? S3 S4]; subst. constructor.
  - apply IH; auto.
  - rewrite Forall_forall in *. intros x X. apply in_app_or in X as [X|X]; auto.
Qed.
Lemma sorted_insert F F1 p bp G F' : Fl_head :: F = F1 ++ p :: G -> Fl_head :: F' = F1 ++ p :: bp :: G -> StronglySorted Z.lt F ->
  (p = Fl_head /\ F1 = [] \/ p < bp) -> match G with [] => True | c :: _ => bp < c end -> StronglySorted Z.lt F'.
Proof.
  intros E E' S P C.
  assert (GB : forall x, In x G -> StronglySorted Z.lt G -> bp < x).
  { intros x X SG. destruct G as [|c G]; [contradiction|]. inversion SG as [|? ? S1 S2]; subst. destruct X as [<-|X]; [assumption|]. rewrite Forall_forall in S2. specialize (S2 x X). lia. }
  destruct F1 as [|y F1]; cbn [app] in E, E'; injection E as E0 ->; injection E' as E'0 ->.
  - constructor; [assumption|]. rewrite Forall_forall. auto.
  - destruct P as [[_ P]|P]; [discriminate|]. apply sorted_app_l in S as (S1 & S2 & S3). inversion S2 as [|? ? S4 S5]; subst. rewrite Forall_forall in S5.
    apply sorted_app_r; [assumption| |].
    + constructor; [constructor; [assumption|]|]; rewrite Forall_forall.
      * auto.
      * intros x [<-|X]; [assumption|]. specialize (GB x X S4). lia.
    + intros x z X [<-|[<-|Z0]].
      * apply S3; [assumption|now left].
      * specialize (S3 x p X (or_introl eq_refl)). lia.
      * apply S3; [assumption|now right].
Qed.

(** a new chunk as a free block *)
Lemma extend_ok fuel s T F F1 a n : inv s T F -> Fl_head :: F = F1 ++ [fl_last s] -> fresh s a n -> 2 <= n -> (length F < fuel)%nat ->
  let s1 := set_chunks (set_m s (wr (m s) a (make_header (n - 1) 0 Blue))) (insert_chunk (a, n) (chunks s)) in
  exists s2 F', fl_add_block Fl_head fuel s1 (a + 1) = Ret s2 /\ inv s2 ((a, n - 1) :: T) F' /\ In (a + 1) F' /\ length F' = S (length F) /\ wosize_bp (m s2) (a + 1) = n - 1 /\
    (forall h w, live (m s2) ((a, n - 1) :: T) h w <-> live (m s) T h w) /\
    (forall h w x, live (m s) T h w -> h <= x <= h + w -> m s2 x = m s x) /\
    gc_phase s2 = gc_phase s /\ gc_sweep_hp s2 = gc_sweep_hp s /\
    (ord s T F -> (gc_phase s = Phase_mark \/ gc_sweep_hp s <= a \/ exists x, In x F /\ a < x) -> ord s2 ((a, n - 1) :: T) F').
Proof.
  intros I EL (A1 & A2 & A3 & A4) N L s1. pose proof (v_heap _ _ _ _ I) as H.
  assert (HN : heap_ok (wr (m s) a (make_header (n - 1) 0 White)) (insert_chunk (a, n) (chunks s)) ((a, n - 1) :: T) F).
  { apply add_chunk with (cs := chunks s); auto; try lia. apply insert_chunk_perm. easy. }
  set (mN := wr (m s) a (make_header (n - 1) 0 White)) in *.
  assert (TN : In (a, n - 1) ((a, n - 1) :: T)) by now left.
  assert (TN' : In (a + 1 - 1, n - 1) ((a, n - 1) :: T)) by (left; f_equal; lia).
  assert (CN : color_hd (mN (a + 1 - 1)) <> Blue).
  { replace (a + 1 - 1) with a by lia. unfold mN. rewrite wr_same, color_make by (auto; lia). easy. }
  assert (TD : forall h w, In (h, w) T -> a + (n - 1) < h \/ h + w < a).
  { intros h w B. destruct (h_in _ _ _ _ _ H _ _ B) as (a' & n' & C & L1 & L2). specialize (A4 _ _ C). pose proof (tile_pos _ H _ _ B). lia. }
  assert (PD : forall x, In x (Fl_head :: F) -> x < a \/ a + n <= x).
  { intros x [X|X]; [lia|]. destruct (free_tile _ H _ X) as (v & B & V & _). apply TD in B. lia. }
  (* the common part *)
  assert (ADD : forall F1' p G, Fl_head :: F = F1' ++ p :: G -> (p = Fl_head /\ F1' = [] \/ p < a + 1) -> match G with [] => True | c :: _ => a + 1 <= c end ->
    forall s2, (forall x, m s2 x = wr (wr (wr (m s) a (make_header (n - 1) 0 Blue)) (a + 1) (hd 0 G)) p (a + 1) x) ->
    fl_prev s2 = fl_prev s -> fl_last s2 = fl_last s -> chunks s2 = insert_chunk (a, n) (chunks s) -> gc_sweep_hp s2 = gc_sweep_hp s -> chunk s2 = chunk s -> limit s2 = limit s ->
    gc_phase s2 = gc_phase s ->
    (fl_merge s2 = fl_merge s \/ fl_merge s2 = a + 1) ->
    (ord s T F -> (gc_phase s = Phase_mark \/ gc_sweep_hp s <= a \/ exists x, In x F /\ a < x) -> gc_phase s <> Phase_mark -> fl_merge s2 = (if (p =? fl_merge s) && (a + 1 <=? gc_sweep_hp s) then a + 1 else fl_merge s)) ->
    exists F', inv s2 ((a, n - 1) :: T) F' /\ In (a + 1) F' /\ length F' = S (length F) /\ wosize_bp (m s2) (a + 1) = n - 1 /\
    (forall h w, live (m s2) ((a, n - 1) :: T) h w <-> live (m s) T h w) /\
    (forall h w x, live (m s) T h w -> h <= x <= h + w -> m s2 x = m s x) /\
    gc_phase s2 = gc_phase s /\ gc_sweep_hp s2 = gc_sweep_hp s /\
    (ord s T F -> (gc_phase s = Phase_mark \/ gc_sweep_hp s <= a \/ exists x, In x F /\ a < x) -> ord s2 ((a, n - 1) :: T) F')).
  { intros F1' p G EF PB GB s2 M2 S1 S2 S3 S4 S5 S6 S7 S8 S9.
    destruct (link _ mN _ _ F F1' p G (a + 1) (n - 1) 0 HN EF TN' ltac:(lia) CN tag_ok_0) as (F' & EF' & H' & IN').
    assert (PL : In p (Fl_head :: F)) by (rewrite EF, in_app_iff; cbn; tauto). pose proof (PD _ PL) as PDp.
    assert (H2 : heap_ok (m s2) (chunks s2) ((a, n - 1) :: T) F').
    { rewrite S3. apply (heap_frame _ _ _ _ _ _ H'); intros; rewrite M2; unfold mN, wr; replace (a + 1 - 1) with a by lia;
        repeat match goal with |- context [?x =? ?y] => destruct (Z.eqb_spec x y); try reflexivity; try lia end. }
    assert (CHG : forall x, m s2 x <> m s x -> x = p \/ x = a \/ x = a + 1).
    { intros x X. rewrite M2 in X. unfold wr in X. destruct (Z.eqb_spec x p); [auto|]. destruct (Z.eqb_spec x (a + 1)); [auto|]. destruct (Z.eqb_spec x a); [auto|]. congruence. }
    assert (MA : m s2 a = make_header (n - 1) 0 Blue).
    { rewrite M2. rewrite !wr_other by lia. apply wr_same. }
    assert (TH : forall h w, In (h, w) T -> m s2 h = m s h).
    { intros h w B. destruct (Z.eq_dec (m s2 h) (m s h)) as [X|X]; [assumption|]. apply CHG in X. pose proof (TD _ _ B). pose proof (tile_pos _ H _ _ B).
      destruct X as [X|X]; [|lia]. exfalso. now apply (link_not_hdr _ H p h w PL B). }
    assert (LVI : forall h w x, live (m s) T h w -> h <= x <= h + w -> m s2 x = m s x).
    { intros h w x (X1 & X2 & X3) Hx. destruct (Z.eq_dec (m s2 x) (m s x)) as [X|X]; [assumption|]. exfalso. apply CHG in X. pose proof (TD _ _ X1).
      destruct X as [X|X]; [|lia]. subst x. destruct PL as [PL|PL]; [pose proof (tile_head _ H _ _ X1); lia|].
      destruct (free_tile _ H _ PL) as (v' & B' & V' & C'). destruct (h_dis _ _ _ _ _ H _ _ _ _ X1 B') as [[E1 E2]|E1]; [subst; contradiction|lia]. }
    exists F'. split; [|split; [|split; [|split; [|split; [|split; [exact LVI|split; [exact S7|split; [exact S4|]]]]]]]].
    - constructor.
      + exact H2.
      + rewrite S3. intros X. pose proof (insert_chunk_perm (a, n) (chunks s)) as P. rewrite X in P. now apply Permutation_nil_cons in P.
      + rewrite S1. destruct (v_prev _ _ _ _ I) as [X|X]; [now left|right; apply IN'; now left].
      + destruct S8 as [-> | ->]; [|right; apply IN'; now right]. destruct (v_merge _ _ _ _ I) as [X|X]; [now left|right; apply IN'; now left].
      + intros PH. rewrite S7 in PH. rewrite S3, S4, S5, S6. destruct (v_sweep _ _ _ _ I PH) as (k & X1 & X2 & X3 & X4). exists k.
        split; [|split; [assumption|split; [assumption|]]].
        * apply (Permutation_in _ (Permutation_sym (insert_chunk_perm (a, n) (chunks s)))). now right.
        * destruct X4 as [X4|(v & X4)]; [now left|]. right. exists v. now right.
    - apply IN'. now right.
    - apply (f_equal (@length _)) in EF. apply (f_equal (@length _)) in EF'. rewrite app_length in EF, EF'. cbn in EF, EF'. lia.
    - unfold wosize_bp, hd_bp. replace (a + 1 - 1) with a by lia. rewrite MA. apply wosize_make; auto; lia.
    - intros h w. split.
      + intros ([X1|X1] & X2 & X3).
        * injection X1 as <- <-. exfalso. apply X2. rewrite MA. apply color_make; auto; lia.
        * split; [assumption|]. split; [now rewrite <- (TH _ _ X1)|assumption].
      + intros (X1 & X2 & X3). split; [now right|]. split; [now rewrite (TH _ _ X1)|assumption].
    - intros O CND. constructor.
      + rewrite S3. apply insert_chunk_sorted; [|apply O]. intros [a' n'] D. specialize (A4 _ _ D). pose proof (h_chunk _ _ _ _ _ H _ _ D). cbn. lia.
      + apply (sorted_insert F F1' p (a + 1) G); auto; [apply O|]. destruct G as [|c G]; [exact Logic.I|]. assert (X : In c F) by (eapply list_in; eauto).
        specialize (PD c (or_intror X)). lia.
      + intros h w w' [X1|X1] [X2|X2] C1 C2.
        * injection X1 as <- <-. injection X2 as X2 _. lia.
        * injection X1 as <- <-. destruct (h_in _ _ _ _ _ H _ _ X2) as (a' & n' & C & L1 & L2). specialize (A4 _ _ C). pose proof (tile_pos _ H _ _ X2). lia.
        * injection X2 as X2 _. destruct (h_in _ _ _ _ _ H _ _ X1) as (a' & n' & C & L1 & L2). specialize (A4 _ _ C). pose proof (tile_pos _ H _ _ X1). lia.
        * rewrite (TH _ _ X1) in C1. rewrite (TH _ _ X2) in C2. exact (o_coal _ _ _ _ O h w w' X1 X2 C1 C2).
      + intros PH. rewrite S7 in PH. rewrite S4. specialize (S9 O CND PH). destruct (o_merge _ _ _ _ O PH) as (A & B & E1 & E2 & E3 & E4).
        pose proof (list_nodup _ H) as ND. rewrite E1 in EF, ND.
        destruct (insert_AB A B F1' p (a + 1) G F' EF ND EF') as [(X1 & X2)|[(A' & X1 & X2 & X3 & X4 & X5 & X6)|(B' & X1 & X2 & X3 & X4)]].
        * rewrite E2, X2, Z.eqb_refl in S9. cbn [andb] in S9. destruct (Z.leb_spec (a + 1) (gc_sweep_hp s)) as [Y|Y].
          -- exists (A ++ [a + 1]), B. split; [now rewrite <- app_assoc|]. split; [rewrite S9, last_app_cons; reflexivity|]. split; [|assumption].
             intros x X. apply in_app_or in X as [X|[X|[]]]; [auto|lia].
          -- exists A, (a + 1 :: B). split; [assumption|]. split; [assumption|]. split; [assumption|]. intros x [X|X]; [lia|auto].
        * exists A', B. split; [assumption|]. split; [|split; [|assumption]].
          -- rewrite S9, E2. destruct (Z.eqb_spec p (last A Fl_head)); [contradiction|]. cbn [andb]. now symmetry.
          -- intros x X. apply X4 in X as [X| ->]; [auto|]. destruct G as [|c G]; [contradiction|]. cbn [hd] in X6. specialize (E3 _ X6). lia.
        * exists A, B'. split; [assumption|]. split; [|split; [assumption|]].
          -- rewrite S9, E2. destruct (Z.eqb_spec p (last A Fl_head)); [contradiction|]. reflexivity.
          -- intros x X. apply X4 in X as [X| ->]; [auto|]. specialize (E4 _ X2). destruct PB as [[PB _]|PB]; [|lia].
             exfalso. subst p. inversion ND as [|? ? N1 _]. apply N1. apply in_or_app. now right. }
  unfold fl_add_block. change (fl_last s1) with (fl_last s). destruct (Z.gtb_spec (a + 1) (fl_last s)) as [C|C].
  - eexists. assert (LL : In (fl_last s) (Fl_head :: F)) by (rewrite EL; apply in_or_app; right; now left). pose proof (PD _ LL).
    assert (PB : fl_last s = Fl_head /\ F1 = [] \/ fl_last s < a + 1) by (right; lia).
    match goal with |- exists F', Ret ?S = _ /\ _ => edestruct (ADD F1 (fl_last s) [] EL PB Logic.I S) as (F' & R) end; try reflexivity.
    + intros x. cbn. unfold wr. destruct (Z.eqb_spec x (a + 1)), (Z.eqb_spec x (fl_last s)); try reflexivity; lia.
    + now left.
    + intros O CND PH. change (fl_merge s = (if (fl_last s =? fl_merge s) && (a + 1 <=? gc_sweep_hp s) then a + 1 else fl_merge s)).
      destruct (Z.eqb_spec (fl_last s) (fl_merge s)) as [Y|Y]; [|reflexivity]. cbn [andb]. destruct (Z.leb_spec (a + 1) (gc_sweep_hp s)) as [Y2|Y2]; [|reflexivity].
      exfalso. destruct CND as [CND|[CND|(x & X1 & X2)]]; [contradiction|lia|].
      (* x is in the list and the last one is below a *)
      assert (X3 : x <= fl_last s); [|lia]. destruct F1 as [|y F1]; cbn [app] in EL; injection EL as EL0 EL; subst F; [contradiction|].
      apply in_app_or in X1 as [X1|[X1|[]]]; [|lia]. pose proof (o_sorted _ _ _ _ O) as S. apply sorted_app_l in S as (_ & _ & S). specialize (S x (fl_last s) X1 (or_introl eq_refl)). lia.
    + exists F'. split; [reflexivity|]. exact R.
  - change (next (m s1) Fl_head) with (next (m s1) Fl_head). 
    assert (MF : forall x, In x (Fl_head :: F) -> m s1 x = m s x).
    { intros x X. apply PD in X. change (m s1 x) with (wr (m s) a (make_header (n - 1) 0 Blue) x). apply wr_other. lia. }
    (* the search reads only link words *)
    assert (FP : forall fuel p G F0, Fl_head :: F = F0 ++ p :: G -> find_place fuel (m s1) (a + 1) p (hd 0 G) = find_place fuel (m s) (a + 1) p (hd 0 G)).
    { induction fuel0 as [|fuel0 IH]; intros p G F0 E; [reflexivity|]. cbn [find_place]. destruct (negb (hd 0 G =? 0) && (hd 0 G <? a + 1)) eqn:T1; [|reflexivity].
      destruct G as [|c G]; [discriminate|]. cbn [hd] in *. unfold next. assert (E2 : Fl_head :: F = (F0 ++ [p]) ++ c :: G) by now rewrite <- app_assoc.
      rewrite MF by (rewrite E2; apply in_or_app; right; now left). rewrite (list_next _ H _ _ _ E2). eapply IH; eauto. }
    unfold next. rewrite MF by now left. rewrite (list_next _ H [] Fl_head F eq_refl). rewrite (FP fuel Fl_head F [] eq_refl).
    destruct (find_place_ok _ H (a + 1) fuel [] Fl_head F eq_refl L) as (F1' & p & G & E1 & E2 & E3 & E4). rewrite E1. cbn [bind].
    eexists.
    assert (PB : p = Fl_head /\ F1' = [] \/ p < a + 1).
    { destruct E3 as [E3|E3]; [|now right]. subst p. left. split; [reflexivity|]. destruct F1' as [|y F1']; [reflexivity|]. exfalso.
      pose proof (list_nodup _ H) as ND. cbn [app] in E2. injection E2 as E20 E2. inversion ND as [|? ? N1 _]. apply N1. rewrite E2. apply in_or_app. right. now left. }
    match goal with |- exists F', Ret ?S = _ /\ _ => edestruct (ADD F1' p G E2 PB E4 S) as (F' & R) end;
      try (destruct (_ && _); reflexivity).
    + destruct (_ && _); [now right|now left].
    + exists F'. split; [reflexivity|]. exact R.
Qed.

Lemma round_size incr wo b : 1 <= wo -> round_heap_chunk_size incr ((wo + 1) * 8) = Some b -> wo + 1 <= b / 8.
Proof.
  intros W. unfold round_heap_chunk_size, Page_size. destruct (Z.ltb_spec ((wo + 1) * 8) incr) as [C|C].
  - intros [= <-]. apply Z.div_le_lower_bound; lia.
  - destruct (_ <=? _); [|discriminate]. intros E.
    assert (Eb : b = Z.shiftl (Z.shiftr ((wo + 1) * 8 + 4096 - 1) 12) 12) by congruence. subst b. rewrite Z.shiftl_mul_pow2, Z.shiftr_div_pow2 by lia. change (2 ^ 12) with 4096.
    apply Z.div_le_lower_bound; [lia|]. pose proof (Z.div_mod ((wo + 1) * 8 + 4096 - 1) 4096 ltac:(lia)). pose proof (Z.mod_pos_bound ((wo + 1) * 8 + 4096 - 1) 4096 ltac:(lia)). lia.
Qed.

Lemma inv_set_last s T F x : inv s T F -> inv (set_last s x) T F.
Proof. intros [H1 H2 H3 H4 H5]. constructor; assumption. Qed.
Lemma ord_set_last s T F x : ord s T F -> ord (set_last s x) T F.
Proof. intros [H1 H2 H3 H4]. constructor; assumption. Qed.

Lemma alloc_shr_ok fuel s T F incr mem wo t : inv s T F -> (S (length F) < fuel)%nat -> 1 <= wo -> tag_ok t ->
  (forall a b, mem = Some a -> round_heap_chunk_size incr ((wo + 1) * 8) = Some b -> fresh s a (b / 8)) ->
  (exists v s' T' F' c, alloc_shr Fl_head fuel s incr mem wo t = Ret (Allocated v, s') /\ inv s' T' F' /\
     (forall h w, live (m s') T' h w <-> live (m s) T h w \/ (h = v - 1 /\ w = wo)) /\
     (forall h w x, live (m s) T h w -> h <= x <= h + w -> m s' x = m s x) /\ (forall w, ~ live (m s) T (v - 1) w) /\
     m s' (v - 1) = make_header wo t c /\ color_ok c /\ c <> Blue /\ gc_phase s' = gc_phase s /\ gc_sweep_hp s' = gc_sweep_hp s /\
     c = (match gc_phase s with Phase_mark => Black | _ => if v - 1 >=? gc_sweep_hp s then Black else White end) /\
     (ord s T F -> (forall a, mem = Some a -> gc_phase s = Phase_mark \/ gc_sweep_hp s <= a \/ exists x, In x F /\ a < x) -> ord s' T' F')) \/
  (exists last, alloc_shr Fl_head fuel s incr mem wo t = Ret (Out_of_memory, set_last s last) /\ (forall x, In x F -> wosize_bp (m s) x < wo) /\
     (mem = None \/ round_heap_chunk_size incr ((wo + 1) * 8) = None)).
Proof.
  intros I L W Ht FR.
  assert (COL : forall hp (s0 : st), let c := (match gc_phase s0 with Phase_mark => Black | _ => if hp >=? gc_sweep_hp s0 then Black else White end) in color_ok c /\ c <> Blue).
  { intros hp s0. cbn. unfold color_ok. destruct (gc_phase s0); [|destruct (hp >=? gc_sweep_hp s0)|destruct (hp >=? gc_sweep_hp s0)]; split; auto; easy. }
  unfold alloc_shr.
  destruct (fl_allocate_spec _ fuel s T F wo I ltac:(lia)) as [(F1 & p & c & G & s0 & ES & EA & EF & SZ)|(F1 & last & EA & EF & SZ)].
  - left. destruct (allocate_block s0 (wo + 1) p c) as [hp s1] eqn:EB. rewrite EA. cbn [bind].
    set (col := match gc_phase s1 with Phase_mark => Black | _ => if hp >=? gc_sweep_hp s1 then Black else White end).
    destruct (COL hp s1) as [C1 C2]. fold col in C1, C2.
    destruct (take_ok _ s T F F1 p c G wo s0 hp s1 t col _ I ES EF W SZ EB Ht C1 C2 eq_refl) as (T' & F' & H1 & H2 & H3 & H4 & H5 & H6 & H7 & H8 & H9).
    exists (hp + 1), (set_m s1 (wr (m s1) hp (make_header wo t col))), T', F', col. replace (hp + 1 - 1) with hp by lia.
    cbn [gc_phase gc_sweep_hp set_m] in H7, H8.
    do 10 (split; [first [reflexivity|assumption]|]). split; [unfold col; now rewrite H7, H8|]. auto.
  - rewrite EA. cbn [bind]. unfold expand_heap. 
    destruct (round_heap_chunk_size incr ((wo + 1) * 8)) as [b|] eqn:RB.
    2: { right. exists last. split; [reflexivity|]. auto. }
    destruct mem as [a|].
    2: { right. exists last. split; [reflexivity|]. auto. }
    left. specialize (FR a b eq_refl eq_refl). pose proof (round_size _ _ _ W RB) as BS.
    pose proof (inv_set_last s T F last I) as I1.
    destruct (extend_ok fuel (set_last s last) T F F1 a (b / 8) I1 EF FR ltac:(lia) ltac:(lia)) as (s2 & F2 & E1 & I2 & X1 & X2 & X3 & X4 & X5 & X6 & X7 & X8).
    cbn [m set_last chunks] in E1 |- *. change (chunks (set_m (set_last s last) _)) with (chunks s).
    change (chunks (set_last s last)) with (chunks s) in E1. change (m (set_last s last)) with (m s) in *. rewrite E1. cbn [bind].
    destruct (fl_allocate_spec _ fuel s2 _ F2 wo I2 ltac:(lia)) as [(F3 & p & c & G & s0 & ES & EA2 & EF2 & SZ2)|(F3 & last2 & EA2 & EF2 & SZ2)].
    2: { exfalso. specialize (SZ2 _ X1). rewrite X3 in SZ2. lia. }
    destruct (allocate_block s0 (wo + 1) p c) as [hp s1] eqn:EB. rewrite EA2. cbn [bind].
    set (col := match gc_phase s1 with Phase_mark => Black | _ => if hp >=? gc_sweep_hp s1 then Black else White end).
    destruct (COL hp s1) as [C1 C2]. fold col in C1, C2.
    destruct (take_ok _ s2 _ F2 F3 p c G wo s0 hp s1 t col _ I2 ES EF2 W SZ2 EB Ht C1 C2 eq_refl) as (T' & F' & H1 & H2 & H3 & H4 & H5 & H6 & H7 & H8 & H9).
    exists (hp + 1), (set_m s1 (wr (m s1) hp (make_header wo t col))), T', F', col. replace (hp + 1 - 1) with hp by lia.
    change (gc_phase (set_last s last)) with (gc_phase s) in *. change (gc_sweep_hp (set_last s last)) with (gc_sweep_hp s) in *.
    cbn [gc_phase gc_sweep_hp set_m] in H7, H8.
    split; [reflexivity|]. split; [exact H1|]. split; [|split; [|split; [|]]].
    + intros h w. rewrite H2, X4. reflexivity.
    + intros h w x LV Hx. rewrite (H3 h w x); [eapply X5; eauto|now apply X4|assumption].
    + intros w LV. apply (H4 w). now apply X4.
    + split; [assumption|]. split; [assumption|]. split; [assumption|]. split; [cbn; congruence|]. split; [cbn; congruence|]. split; [unfold col; rewrite H7, H8, X6, X7; reflexivity|].
      intros O CND. apply H9. apply X8; [now apply ord_set_last|]. apply (CND a eq_refl).
Qed.

(** *** the sweeper *)
Lemma chunk_of m cs T F h w a n x : heap_ok m cs T F -> In (h, w) T -> In (a, n) cs -> h <= x <= h + w -> a <= x < a + n -> a <= h /\ h + w < a + n.
Proof.
  intros H A C X1 X2. destruct (h_in _ _ _ _ _ H _ _ A) as (a' & n' & C' & L1 & L2).
  destruct (h_chdis _ _ _ _ _ H _ _ _ _ C C') as [[-> ->]|[E|E]]; lia.
Qed.
(** the block that begins where another one, or a chunk, ends or begins *)
Lemma tile_at m cs T F a n x : heap_ok m cs T F -> In (a, n) cs -> a <= x < a + n -> (x = a \/ exists h w, In (h, w) T /\ h + w + 1 = x) -> exists w, In (x, w) T.
Proof.
  intros H C X P. destruct (h_cov _ _ _ _ _ H _ _ _ C X) as (h & w & A & Y). pose proof (chunk_of _ _ _ _ _ _ _ _ _ H A C Y X) as Z0.
  assert (h = x); [|subst; eauto]. destruct P as [P|(h' & w' & A' & P)]; [lia|].
  destruct (h_dis _ _ _ _ _ H _ _ _ _ A A') as [[E1 E2]|E]; [lia|]. pose proof (tile_pos _ H _ _ A). pose proof (tile_pos _ H _ _ A'). lia.
Qed.

Lemma end_mark_ok s T F : inv s T F -> exists s', end_mark Fl_head s = Ret s' /\ inv s' T F /\ m s' = m s /\ gc_phase s' = Phase_weak /\ (ord s T F -> ord s' T F).
Proof.
  intros I. pose proof (v_heap _ _ _ _ I) as H. unfold end_mark. destruct (chunks s) as [|[a n] cs] eqn:EC; [exfalso; now apply (v_ne _ _ _ _ I)|].
  eexists. split; [reflexivity|]. split; [|split; [reflexivity|split; [reflexivity|]]].
  - constructor; cbn.
    + now rewrite EC in *.
    + rewrite EC. discriminate.
    + apply I.
    + now left.
    + intros _. exists n. cbn. rewrite EC. split; [now left|]. split; [reflexivity|].
      assert (C : In (a, n) (chunks s)) by (rewrite EC; now left). destruct (h_chunk _ _ _ _ _ H a n) as (_ & N & _). { rewrite <- EC. exact C. }
      split; [lia|]. right. apply (tile_at (m s) _ T F a n a H); [now left|lia|now left].
  - intros O. constructor; cbn.
    + apply O.
    + apply O.
    + apply O.
    + intros _. exists [], F. split; [reflexivity|]. split; [reflexivity|]. split; [intros x []|]. intros x X.
      destruct (free_tile _ H _ X) as (w & A & _). destruct (h_in _ _ _ _ _ H _ _ A) as (a' & n' & C & L1 & _).
      pose proof (o_chunks _ _ _ _ O) as S. rewrite EC in S. inversion S as [|? ? _ S2]; subst. rewrite Forall_forall in S2. destruct C as [C|C]; [injection C as <- <-; lia|].
      specialize (S2 _ C). cbn in S2. lia.
Qed.
Lemma set_phase_ok s T F ph : inv s T F -> gc_phase s <> Phase_mark \/ ph = Phase_mark -> inv (set_phase s ph) T F /\ (ord s T F -> ord (set_phase s ph) T F).
Proof.
  intros [H1 H2 H3 H4 H5] D. split.
  - constructor; try assumption. intros P. apply H5. destruct D as [D|D]; [assumption|contradiction].
  - intros [O1 O2 O3 O4]. constructor; try assumption. intros P. apply O4. destruct D as [D|D]; [assumption|contradiction].
Qed.
Lemma next_chunk_spec c cs d : next_chunk c cs = Some d -> exists l1 n l2, cs = l1 ++ (c, n) :: d :: l2.
Proof.
  induction cs as [|[a n] cs IH]; cbn [next_chunk fst]; [discriminate|]. destruct (Z.eqb_spec a c) as [->|Ne].
  - destruct cs as [|e cs]; cbn; [discriminate|]. intros [= ->]. now exists [], n, cs.
  - intros E. destruct (IH E) as (l1 & n' & l2 & ->). now exists ((a, n) :: l1), n', l2.
Qed.
(** recolouring a block *)
Lemma recolor_inv s T F hp w t c : inv s T F -> In (hp, w) T -> color_hd (m s hp) <> Blue -> tag_ok t -> color_ok c -> c <> Blue ->
  let s' := set_m s (wr (m s) hp (make_header w t c)) in inv s' T F /\ (forall h v, live (m s') T h v <-> live (m s) T h v) /\ (ord s T F -> ord s' T F).
Proof.
  intros I A NB Ht Hc CB s'. pose proof (v_heap _ _ _ _ I) as H. pose proof (tile_pos _ H _ _ A).
  assert (CL : forall h, color_hd (m s' h) = Blue <-> color_hd (m s h) = Blue).
  { intros h. change (m s' h) with (wr (m s) hp (make_header w t c) h). unfold wr. destruct (Z.eqb_spec h hp) as [->|]; [|tauto]. rewrite color_make by (auto; lia). tauto. }
  split; [|split].
  - destruct I as [H1 H2 H3 H4 H5]. constructor; try assumption. now apply recolor.
  - intros h v. unfold live. rewrite CL. tauto.
  - intros [O1 O2 O3 O4]. constructor; try assumption. intros h v v' X1 X2 C1 C2. apply CL in C1, C2. exact (O3 h v v' X1 X2 C1 C2).
Qed.

Definition freed (e : event) (h : Z) : Prop := match e with Freed bp => h = bp - 1 | _ => False end.
Lemma sorted_split_pos A B : StronglySorted Z.lt (A ++ B) -> forall x y, In x A -> In y B -> x < y.
Proof. intros S. apply sorted_app_l in S. apply S. Qed.

Lemma sweep_step_ok s T F : inv s T F -> gc_phase s = Phase_sweep -> forall e s', sweep_step s = (e, s') ->
  exists T' F', inv s' T' F' /\ (forall h w, live (m s') T' h w <-> live (m s) T h w /\ ~ freed e h) /\
    (forall h w x, live (m s) T h w -> ~ freed e h -> h < x <= h + w -> m s' x = m s x) /\
    (forall h w, live (m s) T h w -> ~ freed e h -> tag_hd (m s' h) = tag_hd (m s h)) /\
    (forall h, freed e h -> color_hd (m s h) = White /\ h = gc_sweep_hp s) /\
    (ord s T F -> ord s' T' F').
Proof.
  intros I PH e s' E. pose proof (v_heap _ _ _ _ I) as H.
  destruct (v_sweep _ _ _ _ I ltac:(rewrite PH; discriminate)) as (n & C & LM & BD & TS).
  unfold sweep_step in E. destruct (Z.ltb_spec (gc_sweep_hp s) (limit s)) as [L|L].
  - destruct TS as [TS|(w & A)]; [lia|]. set (hp := gc_sweep_hp s) in *.
    pose proof (tile_pos _ H _ _ A) as TP. pose proof (tile_head _ H _ _ A) as TH.
    assert (SZ : wosize_hd (m s hp) = w) by now apply (tile_size _ H).
    destruct (h_hdr _ _ _ _ _ H _ _ A) as (_ & t & c & Ht & Hc & EH).
    assert (CC : color_hd (m s hp) = c) by (rewrite EH; apply color_make; auto; lia).
    rewrite SZ, CC in E.
    assert (EN : hp + w < limit s). { rewrite LM. eapply chunk_of with (x := hp); eauto; lia. }
    destruct (Z.eqb_spec c White) as [EW|NW]; [|destruct (Z.eqb_spec c Blue) as [EB|NB]].
    + (* a white block is freed *)
      set (s1 := set_sweep s (hp + (w + 1))) in *.
      destruct (fl_merge_block s1 (hp + 1)) as [adj s2] eqn:EM. apply pair_equal_spec in E as [<- Es].
      destruct (in_split _ _ (v_merge _ _ _ _ I)) as (F1 & F2 & EF).
      assert (A' : In (hp + 1 - 1, w) T) by (now replace (hp + 1 - 1) with hp by lia).
      assert (EH' : m s1 (hp + 1 - 1) = make_header w t c) by (replace (hp + 1 - 1) with hp by lia; exact EH).
      assert (NBc : c <> Blue) by (rewrite EW; easy).
      destruct (merge_block_ok Fl_head s1 T F F1 F2 (hp + 1) w t c H EF A' EH' Ht Hc NBc (v_prev _ _ _ _ I) adj s2 EM)
        as (lft & rgt & R0 & start & size & F' & F2' & PT & H2 & EN2 & RG & LF & PV & Z1 & Z2 & Z3 & Z4 & Z5 & Z6 & RH & CH).
      change (m s1) with (m s) in *. change (chunks s1) with (chunks s) in *. change (fl_merge s1) with (fl_merge s) in *. change (fl_last s1) with (fl_last s) in *.
      change (chunk s1) with (chunk s) in *. change (limit s1) with (limit s) in *. change (gc_phase s1) with (gc_phase s) in *.
      replace (hp + 1 - 1) with hp in * by lia.
      set (T' := (start, size) :: R0) in *.
      assert (AT' : In (start, size) T') by now left.
      assert (R0T : forall h v, In (h, v) R0 -> In (h, v) T).
      { intros h v B. apply (Permutation_in _ (Permutation_sym PT)). apply in_or_app. right. right. apply in_or_app. now right. }
      assert (NDT : NoDup (lft ++ (hp, w) :: rgt ++ R0)) by (eapply Permutation_NoDup; [exact PT|apply H]).
      assert (R0hp : forall h v, In (h, v) R0 -> h <> hp).
      { intros h v B ->. rewrite (tile_uniq _ H _ _ _ (R0T _ _ B) A) in B. apply nodup_app in NDT as (_ & N & _). inversion N as [|? ? N1 _]. apply N1. apply in_or_app. now right. }
      assert (LFB : forall h v, In (h, v) lft -> color_hd (m s h) = Blue).
      { intros h v B. destruct LF as [(wp & -> & X & _)|(-> & _)]; [|contradiction]. destruct B as [B|[]]. injection B as <- <-. now destruct (free_tile _ H _ X) as (? & _ & _ & ?). }
      assert (RGB : forall h v, In (h, v) rgt -> color_hd (m s h) = Blue).
      { intros h v B. destruct RG as [(-> & _)|(cur & wc & -> & _ & _ & _ & X)]; [contradiction|]. destruct B as [B|[]]. injection B as <- <-. assumption. }
      assert (SPAN : start <= hp /\ hp + w <= start + size).
      { assert (SR : hp + 1 + w <= adj).
        { destruct RG as [(_ & _ & _ & Y)|(cur & wc & Y1 & _ & Y2 & Y3 & _)]; [lia|].
          assert (Bc : In (cur - 1, wc) T) by (apply (Permutation_in _ (Permutation_sym PT)), in_or_app; right; right; rewrite Y1; now left). pose proof (tile_pos _ H _ _ Bc). lia. }
        assert (SL : start <= hp).
        { destruct LF as [(wp & Y1 & _ & X1 & X2 & _)|(_ & X2 & _)]; [|lia].
          assert (Bp : In (fl_merge s - 1, wp) T) by (apply (Permutation_in _ (Permutation_sym PT)), in_or_app; left; rewrite Y1; now left). pose proof (tile_pos _ H _ _ Bp). lia. }
        lia. }
      assert (SB : forall v, live (m s2) T' start v -> False).
      { intros v (X1 & X2 & X3). rewrite (tile_uniq _ H2 _ _ _ X1 AT') in X3. destruct LF as [(wp & _ & _ & _ & _ & _ & _ & X)|(_ & _ & _ & [(X & _)|(_ & _ & _ & X)])]; [contradiction|lia|contradiction]. }
      assert (M' : m s' = m s2) by (now rewrite <- Es).
      assert (STALE : forall h, In (h, size) T' -> True) by auto.
      exists T', F'. split; [|split; [|split; [|split; [|split]]]].
      * constructor.
        -- rewrite M'. rewrite <- Es. cbn [chunks set_sweep]. now rewrite Z2.
        -- rewrite <- Es. cbn [chunks set_sweep]. rewrite Z2. apply I.
        -- rewrite <- Es. exact PV.
        -- rewrite <- Es. cbn [fl_merge set_sweep]. destruct LF as [(wp & _ & _ & _ & _ & X1 & X2 & _)|(_ & _ & _ & [(_ & X1 & X2 & _)|(_ & X1 & X2 & _)])];
             rewrite X1, X2; apply in_or_app; right; [now left|now left|right; now left].
        -- intros _. rewrite <- Es. cbn [chunk chunks limit gc_sweep_hp set_sweep]. rewrite Z2, Z4, Z5. exists n. split; [assumption|]. split; [assumption|].
           pose proof (chunk_of _ _ _ _ start size (chunk s) n hp H2 AT' C ltac:(lia) ltac:(lia)) as [Y1 Y2].
           split; [lia|]. destruct (Z.eq_dec adj (limit s)) as [|Ne]; [now left|]. right.
           apply (tile_at (m s2) _ T' F' (chunk s) n adj H2 C); [lia|]. right. exists start, size. split; [assumption|lia].
      * intros h v. rewrite M'. cbn [freed]. split.
        -- intros LV. destruct LV as (X1 & X2 & X3). destruct X1 as [X1|X1].
           { injection X1 as <- <-. exfalso. apply (SB size). split; [assumption|]. auto. }
           split; [|specialize (R0hp _ _ X1); lia]. split; [auto|]. split; [now rewrite <- (RH _ _ X1)|assumption].
        -- intros ((X1 & X2 & X3) & X4). apply (Permutation_in _ PT) in X1. apply in_app_or in X1 as [X1|[X1|X1]].
           { apply LFB in X1. contradiction. }
           { injection X1 as <- <-. lia. }
           apply in_app_or in X1 as [X1|X1]; [apply RGB in X1; contradiction|]. split; [now right|]. split; [now rewrite (RH _ _ X1)|assumption].
      * intros h v x (X1 & X2 & X3) X4 Hx. rewrite M'. destruct (Z.eq_dec (m s2 x) (m s x)) as [Y|Y]; [assumption|]. exfalso. cbn [freed] in X4.
        apply CH in Y as [->|(h' & v' & B & R & D)]; [pose proof (tile_head _ H _ _ X1); lia|].
        destruct (h_dis _ _ _ _ _ H _ _ _ _ X1 B) as [[-> ->]|Y]; [|lia]. destruct D as [D|D]; [lia|contradiction].
      * intros h v (X1 & X2 & X3) X4. rewrite M'. f_equal. cbn [freed] in X4. apply (Permutation_in _ PT) in X1. apply in_app_or in X1 as [X1|[X1|X1]].
        { apply LFB in X1. contradiction. } { injection X1 as <- <-. lia. }
        apply in_app_or in X1 as [X1|X1]; [apply RGB in X1; contradiction|]. now apply (RH _ v).
      * intros h. cbn [freed]. intros ->. replace (hp + 1 - 1) with hp by lia. rewrite CC. auto.
      * (* order *)
        intros O. destruct (o_merge _ _ _ _ O ltac:(rewrite PH; discriminate)) as (A1 & B1 & O1 & O2 & O3 & O4). fold hp in O3, O4.
        assert (EFAB : F1 ++ fl_merge s :: F2 = (Fl_head :: A1) ++ B1) by (rewrite <- EF, O1; reflexivity).
        (* the list splits at fl_merge *)
        assert (SPL : Fl_head :: A1 = F1 ++ [fl_merge s] /\ B1 = F2).
        { pose proof (list_nodup _ H) as ND. rewrite EF in ND.
          destruct (exists_last (l := Fl_head :: A1) ltac:(discriminate)) as (Q & q & EQ).
          assert (q = fl_merge s). { rewrite O2, <- (last_cons_default A1 Fl_head 0), EQ, last_app_cons. reflexivity. } subst q.
          rewrite EQ, <- app_assoc in EFAB. cbn [app] in EFAB.
          assert (F1 = Q).
          { clear - ND EFAB. assert (ND2 : NoDup (Q ++ fl_merge s :: B1)) by now rewrite <- EFAB. revert Q EFAB ND2. induction F1 as [|y F1 IH]; intros Q E ND2.
            - destruct Q as [|z Q]; [reflexivity|]. exfalso. cbn [app] in E, ND2. injection E as <- E. inversion ND2 as [|? ? N1 _]. apply N1. apply in_or_app. right. now left.
            - destruct Q as [|z Q]; cbn [app] in *.
              + exfalso. injection E as -> E. inversion ND as [|? ? N1 _]. apply N1. apply in_or_app. right. now left.
              + injection E as -> E. f_equal. inversion ND; inversion ND2; subst. auto. }
          subst Q. split; [exact EQ|]. apply app_inv_head in EFAB. congruence. }
        destruct SPL as [EA1 EB1]. subst B1.
        assert (AF : forall x, In x A1 -> In x F) by (intros x X; rewrite O1; apply in_or_app; now left).
        assert (F2F : forall x, In x F2 -> In x F) by (intros x X; rewrite O1; apply in_or_app; now right).
        (* blocks before end before hp; blocks after begin after the block *)
        assert (BEF : forall x v, In x A1 -> In (x - 1, v) T -> x - 1 + v < hp).
        { intros x v X B. specialize (O3 x X). destruct (h_dis _ _ _ _ _ H _ _ _ _ A B) as [[Y1 Y2]|Y]; lia. }
        assert (AFT : forall x, In x F2 -> hp + w < x - 1).
        { intros x X. specialize (O4 x X). destruct (free_tile _ H _ (F2F x X)) as (v & B & V & CB).
          destruct (h_dis _ _ _ _ _ H _ _ _ _ A B) as [[Y1 Y2]|Y]; [rewrite <- Y1, CC in CB; congruence|lia]. }
        assert (F2S : StronglySorted Z.lt F2) by (pose proof (o_sorted _ _ _ _ O) as S; rewrite O1 in S; now apply sorted_app_l in S as (_ & S & _)).
        (* the remaining blocks of the list are after the new block *)
        assert (F2'in : forall x, In x F2' -> In x F2) by (intros x X; destruct RG as [(_ & -> & _)|(cur & wc & _ & -> & _)]; [assumption|now right]).
        assert (AFT' : forall x, In x F2' -> adj <= x - 1).
        { intros x X. specialize (AFT x (F2'in x X)). destruct RG as [(_ & -> & _ & Y)|(cur & wc & Y1 & Y2 & Y3 & Y4 & CBc)]; [lia|].
          assert (Bc : In (cur - 1, wc) T) by (apply (Permutation_in _ (Permutation_sym PT)), in_or_app; right; right; rewrite Y1; now left).
          destruct (free_tile _ H _ (F2F x (F2'in x X))) as (v & B & V & CB). subst F2. inversion F2S as [|? ? S1 S2]. rewrite Forall_forall in S2. specialize (S2 x X).
          destruct (h_dis _ _ _ _ _ H _ _ _ _ Bc B) as [[Y5 Y6]|Y]; lia. }
        assert (F2'S : StronglySorted Z.lt F2') by (destruct RG as [(_ & -> & _)|(cur & wc & _ & -> & _)]; [assumption|now inversion F2S]).
        (* the new list *)
        assert (NF : exists A', F' = A' ++ F2' /\ fl_merge s2 = last A' Fl_head /\ (forall x, In x A' -> In x A1 \/ (x = hp + 1 /\ start = hp)) /\ StronglySorted Z.lt A').
        { pose proof (o_sorted _ _ _ _ O) as SF. rewrite O1 in SF. apply sorted_app_l in SF as (SA & _ & _).
          assert (SAME : Fl_head :: F' = F1 ++ fl_merge s :: F2' -> F' = A1 ++ F2').
          { intros X. assert (Y : Fl_head :: F' = (Fl_head :: A1) ++ F2') by (rewrite EA1, <- app_assoc; exact X). now injection Y. }
          destruct LF as [(wp & _ & _ & _ & _ & X1 & X2 & _)|(_ & X0 & _ & [(_ & X1 & X2 & _)|(_ & X1 & X2 & _)])].
          - exists A1. rewrite X2. auto.
          - exists A1. rewrite X2. auto.
          - exists (A1 ++ [hp + 1]). split; [|split; [|split]].
            + assert (Y : Fl_head :: F' = (Fl_head :: A1) ++ (hp + 1) :: F2') by (rewrite EA1, <- app_assoc; exact X1). injection Y as ->. now rewrite <- app_assoc.
            + rewrite X2, last_app_cons. reflexivity.
            + intros x X. apply in_app_or in X as [X|[X|[]]]; [now left|right; auto].
            + apply sorted_app_r; [assumption|repeat constructor|]. intros x y X [<-|[]]. specialize (O3 x X). lia. }
        clear A'. destruct NF as (A' & N1 & N2 & N3 & N4).
        constructor.
        -- rewrite <- Es. cbn [chunks set_sweep]. rewrite Z2. apply O.
        -- rewrite N1. apply sorted_app_r; [assumption|assumption|]. intros x y X Y. specialize (AFT' y Y). apply N3 in X as [X|[X _]]; [specialize (O3 x X)|]; lia.
        -- rewrite M'. intros h v v' X1 X2 C1 C2.
           assert (BT : forall h v, In (h, v) R0 -> color_hd (m s2 h) = Blue -> In (h + 1) F /\ In (h, v) T /\ color_hd (m s h) = Blue).
           { intros h0 v0 B CB. rewrite (RH _ _ B) in CB. split; [|auto]. apply (h_free _ _ _ _ _ H). exists v0. replace (h0 + 1 - 1) with h0 by lia. auto. }
           destruct X1 as [X1|X1].
           ++ injection X1 as <- <-. destruct X2 as [X2|X2]; [injection X2 as X2 _; pose proof (tile_pos _ H2 _ _ AT'); lia|].
              (* the block after the new one *)
              destruct (BT _ _ X2 C2) as (Y1 & Y2 & Y3). rewrite EN2 in *.
              destruct RG as [(E1 & E2 & E3 & E4)|(cur & wc & E1 & E2 & E3 & E4 & E5)].
              ** (* it would be the head of F2 *)
                 assert (Y4 : In (adj + 1) F2). { rewrite O1 in Y1. apply in_app_or in Y1 as [Y1|Y1]; [|assumption]. specialize (O3 _ Y1). lia. }
                 destruct F2 as [|c2 F2r]; [contradiction|]. destruct Y4 as [Y4|Y4]; [cbn [hd] in E3; lia|].
                 inversion F2S as [|? ? _ S2]. rewrite Forall_forall in S2. specialize (S2 _ Y4). specialize (AFT c2 (or_introl eq_refl)). lia.
              ** assert (Bc : In (cur - 1, wc) T) by (apply (Permutation_in _ (Permutation_sym PT)), in_or_app; right; right; rewrite E1; now left).
                 apply (o_coal _ _ _ _ O (cur - 1) wc v' Bc); [|assumption|]; replace (cur - 1 + wc + 1) with adj by lia; assumption.
           ++ destruct (BT _ _ X1 C1) as (Y1 & Y2 & Y3). destruct X2 as [X2|X2].
              ** injection X2 as X2 <-.
                 (* the block before the new one *)
                 destruct LF as [(wp & E1 & E2 & E3 & E4 & _)|(E1 & E2 & E3 & E4)].
                 --- assert (Bp : In (fl_merge s - 1, wp) T) by (apply (Permutation_in _ (Permutation_sym PT)); rewrite E1; now left).
                     destruct (free_tile _ H _ E2) as (v2 & B2 & V2 & CB2). apply (o_coal _ _ _ _ O h v wp Y2); [|assumption|]; replace (h + v + 1) with (fl_merge s - 1) by lia; assumption.
                 --- (* it would be fl_merge *)
                     assert (Y4 : In (h + 1) A1). { rewrite O1 in Y1. apply in_app_or in Y1 as [Y1|Y1]; [assumption|]. specialize (AFT _ Y1). pose proof (tile_pos _ H _ _ Y2). lia. }
                     assert (Y5 : h + 1 <= fl_merge s /\ fl_merge s <> Fl_head).
                     { pose proof (o_sorted _ _ _ _ O) as SF. rewrite O1 in SF. apply sorted_app_l in SF as (SA & _ & _). rewrite O2. clear - SA Y4 H AF.
                       destruct (exists_last (l := A1) ltac:(intros ->; contradiction)) as (Q & q & ->). rewrite last_app_cons. cbn [last]. split.
                       - apply in_app_or in Y4 as [Y4|[Y4|[]]]; [|lia]. apply sorted_app_l in SA as (_ & _ & SA). specialize (SA _ q Y4 (or_introl eq_refl)). lia.
                       - intros ->. specialize (AF Fl_head ltac:(apply in_or_app; right; now left)). apply (free_pos _ H) in AF. lia. }
                     assert (Y6 : In (fl_merge s) A1). { rewrite O2 in Y5 |- *. destruct (last_in_cons A1 Fl_head) as [Q|Q]; [destruct Y5; congruence|assumption]. }
                     destruct (free_tile _ H _ (AF _ Y6)) as (v2 & B2 & V2 & CB2). pose proof (BEF _ _ Y6 B2).
                     destruct (h_dis _ _ _ _ _ H _ _ _ _ Y2 B2) as [[E5 E6]|E5]; [|lia]. apply (E3 v2 B2). lia.
              ** destruct (BT _ _ X2 C2) as (W1 & W2 & W3). exact (o_coal _ _ _ _ O h v v' Y2 W2 Y3 W3).
        -- intros _. exists A', F2'. split; [assumption|]. rewrite <- Es. cbn [fl_merge gc_sweep_hp set_sweep]. split; [assumption|]. split; [|assumption].
           intros x X. apply N3 in X as [X|[X _]]; [specialize (O3 x X)|]; pose proof (tile_pos _ H2 _ _ AT'); lia.
    + (* a free block *)
      apply pair_equal_spec in E as [<- <-]. exists T, F.
      assert (BF : In (hp + 1) F) by (apply (h_free _ _ _ _ _ H); exists w; replace (hp + 1 - 1) with hp by lia; split; [assumption|congruence]).
      split; [|split; [|split; [|split; [|split]]]].
      * constructor.
        -- exact H.
        -- apply I.
        -- apply I.
        -- right. exact BF.
        -- intros _. cbn. exists n. split; [assumption|]. split; [assumption|]. split; [lia|].
           destruct (Z.eq_dec (hp + (w + 1)) (limit s)) as [|Ne]; [now left|]. right.
           apply (tile_at (m s) _ T F (chunk s) n _ H C); [lia|]. right. exists hp, w. split; [assumption|lia].
      * intros h v. cbn. tauto.
      * intros h v x _ _ _. reflexivity.
      * intros h v _ _. reflexivity.
      * intros h [].
      * intros O. destruct (o_merge _ _ _ _ O ltac:(rewrite PH; discriminate)) as (A1 & B1 & O1 & O2 & O3 & O4). fold hp in O3, O4.
        constructor; try apply O. intros _. cbn.
        (* the block is the head of B1 *)
        assert (XB : In (hp + 1) B1). { rewrite O1 in BF. apply in_app_or in BF as [X|X]; [specialize (O3 _ X); lia|assumption]. }
        destruct B1 as [|b B1]; [contradiction|]. pose proof (o_sorted _ _ _ _ O) as SF. rewrite O1 in SF. apply sorted_app_l in SF as (_ & SB & _).
        inversion SB as [|? ? _ S2]; subst. rewrite Forall_forall in S2.
        assert (b = hp + 1). { destruct XB as [XB|XB]; [assumption|]. specialize (S2 _ XB). specialize (O4 b (or_introl eq_refl)). lia. } subst b.
        exists (A1 ++ [hp + 1]), B1. split; [now rewrite <- app_assoc|]. split; [now rewrite last_app_cons|]. split.
        -- intros x X. apply in_app_or in X as [X|[X|[]]]; [specialize (O3 x X)|]; lia.
        -- intros x X. specialize (S2 x X). assert (XF : In x (A1 ++ (hp + 1) :: B1)) by (apply in_or_app; right; now right).
           destruct (free_tile _ H _ XF) as (v & B & V & _). destruct (h_dis _ _ _ _ _ H _ _ _ _ A B) as [[Y _]|Y]; lia.
    + (* a marked block *)
      apply pair_equal_spec in E as [<- <-]. rewrite EH, white_make by (auto; lia).
      destruct (recolor_inv s T F hp w t White I A ltac:(rewrite CC; assumption) Ht color_ok_White White_Blue) as (I1 & LV & O1).
      exists T, F. change (m (set_m (set_sweep s (hp + (w + 1))) ?x)) with x. split; [|split; [|split; [|split; [|split]]]].
      * destruct I1 as [H1 H3 H4 H5 H6]. constructor; try assumption. intros _. cbn. exists n. split; [assumption|]. split; [assumption|]. split; [lia|].
        destruct (Z.eq_dec (hp + (w + 1)) (limit s)) as [|Ne]; [now left|]. right.
        apply (tile_at (m s) _ T F (chunk s) n _ H C); [lia|]. right. exists hp, w. split; [assumption|lia].
      * intros h v. cbn [freed]. pose proof (LV h v) as Q. cbn [m set_m] in Q |- *. tauto.
      * intros h v x (X1 & X2 & X3) _ Hx. cbn [m set_m]. apply wr_other. intros ->. destruct (h_dis _ _ _ _ _ H _ _ _ _ X1 A) as [[Y _]|Y]; lia.
      * intros h v _ _. cbn [m set_m]. unfold wr. cbn [m set_sweep]. destruct (Z.eqb_spec h hp) as [->|]; [|reflexivity]. rewrite EH. now rewrite !tag_make by (auto; lia).
      * intros h [].
      * intros O. specialize (O1 O). destruct (o_merge _ _ _ _ O ltac:(rewrite PH; discriminate)) as (A1 & B1 & P1 & P2 & P3 & P4). fold hp in P3, P4.
        constructor; try apply O1. intros _. cbn. exists A1, B1. split; [assumption|]. split; [assumption|]. split.
        -- intros x X. specialize (P3 x X). lia.
        -- intros x X. specialize (P4 x X). assert (XF : In x F) by (rewrite P1; apply in_or_app; now right).
           destruct (free_tile _ H _ XF) as (v & B & V & CB). destruct (h_dis _ _ _ _ _ H _ _ _ _ A B) as [[Y _]|Y]; [|lia]. rewrite <- Y, CC in CB. contradiction.
  - assert (EL : gc_sweep_hp s = limit s) by lia.
    destruct (next_chunk (chunk s) (chunks s)) as [[c size]|] eqn:EN; apply pair_equal_spec in E as [<- <-].
    + apply next_chunk_spec in EN as (l1 & n' & l2 & ECS).
      assert (CN : In (c, size) (chunks s)) by (rewrite ECS; apply in_or_app; right; right; now left).
      destruct (h_chunk _ _ _ _ _ H _ _ CN) as (_ & SZ & _).
      exists T, F. split; [|split; [|split; [|split; [|split]]]].
      * destruct I as [H1 H3 H4 H5 H6]. constructor; try assumption. intros _. cbn. exists size. split; [assumption|]. split; [reflexivity|]. split; [lia|]. right.
        apply (tile_at (m s) _ T F c size c H CN); [lia|now left].
      * intros h v. cbn. tauto.
      * reflexivity.
      * reflexivity.
      * intros h [].
      * intros O. destruct (o_merge _ _ _ _ O ltac:(rewrite PH; discriminate)) as (A1 & B1 & P1 & P2 & P3 & P4).
        constructor; try apply O. intros _. cbn. exists A1, B1. split; [assumption|]. split; [assumption|].
        pose proof (o_chunks _ _ _ _ O) as SC. rewrite ECS in SC. apply sorted_app_l in SC as (_ & SC & SC0). apply StronglySorted_inv in SC as [SC1 SC2]. apply StronglySorted_inv in SC1 as [SC3 SC4].
        rewrite Forall_forall in SC2, SC4.
        assert (NE : n' = n). { assert (In (chunk s, n') (chunks s)) by (rewrite ECS; apply in_or_app; right; now left).
          destruct (h_chdis _ _ _ _ _ H _ _ _ _ C H0) as [[_ Y]|Y]; [congruence|]. pose proof (h_chunk _ _ _ _ _ H _ _ C). pose proof (h_chunk _ _ _ _ _ H _ _ H0). lia. } subst n'.
        assert (LT : limit s < c). { specialize (SC2 (c, size) (or_introl eq_refl)). cbn in SC2. destruct (h_chdis _ _ _ _ _ H _ _ _ _ C CN) as [[Y _]|Y]; lia. }
        split; [intros x X; specialize (P3 x X); lia|].
        intros x X. specialize (P4 x X). assert (XF : In x F) by (rewrite P1; apply in_or_app; now right).
        destruct (free_tile _ H _ XF) as (v & B & V & CB). destruct (h_in _ _ _ _ _ H _ _ B) as (a & k & Ca & L1 & L2).
        rewrite ECS in Ca. apply in_app_or in Ca as [Ca|[Ca|[Ca|Ca]]].
        -- specialize (SC0 (a, k) (chunk s, n) Ca (or_introl eq_refl)). cbn in SC0.
           assert (Ca' : In (a, k) (chunks s)) by (rewrite ECS; apply in_or_app; now left). destruct (h_chdis _ _ _ _ _ H _ _ _ _ Ca' C) as [[Y _]|Y]; lia.
        -- injection Ca as <- <-. lia.
        -- injection Ca as <- <-. lia.
        -- specialize (SC4 (a, k) Ca). cbn in SC4. lia.
    + destruct (set_phase_ok s T F Phase_mark I (or_intror eq_refl)) as [I1 O1]. exists T, F. split; [assumption|]. split; [|split; [|split; [|split]]].
      * intros h v. cbn. tauto.
      * reflexivity.
      * reflexivity.
      * intros h [].
      * assumption.
Qed.
End FL.
