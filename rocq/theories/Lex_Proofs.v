(** Proofs about Lexgen.sml, part 1: position words of a linear regular
    expression, and the functions firstpos, lastpos and followpos. *)
From Coq Require Import Sorting.Sorted.
From Verif Require Import Base Lex_Model Lex_Spec.

(** ** Lists *)
Lemma app_mid_split {A} (u : list A) y v w1 w2 :
  u ++ y :: v = w1 ++ w2 ->
  (exists v', w1 = u ++ y :: v' /\ v = v' ++ w2) \/ (exists u', u = w1 ++ u' /\ w2 = u' ++ y :: v).
Proof.
  revert w1; induction u as [|a u IH]; intros w1 E; cbn in *.
  - destruct w1 as [|b w1]; cbn in E.
    + right. exists []. cbn. auto.
    + left. injection E as -> ->. exists w1. auto.
  - destruct w1 as [|b w1]; cbn in E.
    + right. exists (a :: u). subst. auto.
    + injection E as -> E. destruct (IH _ E) as [(v' & -> & ->) | (u' & -> & ->)].
      * left. exists v'. auto.
      * right. exists u'. auto.
Qed.

Lemma single_split {A} (u : list A) y v t : u ++ y :: v = [t] -> u = [] /\ y = t /\ v = [].
Proof.
  destruct u as [|a u]; cbn; intros E.
  - injection E as -> ->. auto.
  - injection E as _ E. destruct u; discriminate.
Qed.

(** ** Position words *)
Inductive lang : regexp -> list transition -> Prop :=
| l_empty : lang Empty []
| l_chars n : lang (Chars n) [OnChars n]
| l_action n : lang (Action n) [ToAction n]
| l_seq r1 r2 w1 w2 : lang r1 w1 -> lang r2 w2 -> lang (Seq r1 r2) (w1 ++ w2)
| l_alt1 r1 r2 w : lang r1 w -> lang (Alt r1 r2) w
| l_alt2 r1 r2 w : lang r2 w -> lang (Alt r1 r2) w
| l_star0 r : lang (Star r) []
| l_star1 r w1 w2 : lang r w1 -> lang (Star r) w2 -> lang (Star r) (w1 ++ w2).

Lemma lang_empty w : lang Empty w -> w = [].
Proof. now inversion 1. Qed.
Lemma lang_chars n w : lang (Chars n) w -> w = [OnChars n].
Proof. now inversion 1. Qed.
Lemma lang_action n w : lang (Action n) w -> w = [ToAction n].
Proof. now inversion 1. Qed.
Lemma lang_seq r1 r2 w : lang (Seq r1 r2) w -> exists w1 w2, w = w1 ++ w2 /\ lang r1 w1 /\ lang r2 w2.
Proof. inversion 1; subst; eauto. Qed.
Lemma lang_alt r1 r2 w : lang (Alt r1 r2) w -> lang r1 w \/ lang r2 w.
Proof. inversion 1; subst; eauto. Qed.

Lemma lang_star_ind (r : regexp) (P : list transition -> Prop) :
  P [] -> (forall w1 w2, lang r w1 -> lang (Star r) w2 -> P w2 -> P (w1 ++ w2)) ->
  forall w, lang (Star r) w -> P w.
Proof.
  intros H0 H1 w H. remember (Star r) as q eqn:E. revert E.
  induction H; intros E; try discriminate; injection E as ->; auto.
Qed.

(** positions of a regular expression *)
Fixpoint poss (r : regexp) : list transition :=
  match r with
  | Empty => []
  | Chars n => [OnChars n]
  | Action n => [ToAction n]
  | Seq r1 r2 | Alt r1 r2 => poss r1 ++ poss r2
  | Star r => poss r
  end.

(** every position occurs once *)
Fixpoint linear (r : regexp) : Prop :=
  match r with
  | Seq r1 r2 | Alt r1 r2 =>
      linear r1 /\ linear r2 /\ (forall t, In t (poss r1) -> In t (poss r2) -> False)
  | Star r => linear r
  | _ => True
  end.

Lemma lang_poss r w t : lang r w -> In t w -> In t (poss r).
Proof.
  induction 1; cbn; intros Hin; rewrite ?in_app_iff in *; try (cbn in Hin; tauto).
Qed.

(** ** merge_trans, firstpos, lastpos *)
Lemma merge_nil_l s : merge_trans [] s = s.
Proof. now destruct s. Qed.
Lemma merge_nil_r s : merge_trans s [] = s.
Proof. destruct s as [|t s]; [reflexivity|]; now destruct t. Qed.

Lemma in_merge t s1 s2 : In t (merge_trans s1 s2) <-> In t s1 \/ In t s2.
Proof.
  revert s2; induction s1 as [|t1 r1 IH1]; intros s2.
  - rewrite merge_nil_l. cbn. tauto.
  - induction s2 as [|t2 r2 IH2].
    + rewrite merge_nil_r. cbn. tauto.
    + destruct t1 as [n1|n1], t2 as [n2|n2].
      * change (merge_trans (OnChars n1 :: r1) (OnChars n2 :: r2))
          with (if n1 =? n2 then OnChars n1 :: merge_trans r1 r2 else
                if n1 <? n2 then OnChars n1 :: merge_trans r1 (OnChars n2 :: r2)
                else OnChars n2 :: merge_trans (OnChars n1 :: r1) r2).
        destruct (Z.eqb_spec n1 n2) as [->|N]; [|destruct (n1 <? n2)];
          cbn [In] in *; rewrite ?IH1, ?IH2; cbn [In]; tauto.
      * change (merge_trans (OnChars n1 :: r1) (ToAction n2 :: r2))
          with (OnChars n1 :: merge_trans r1 (ToAction n2 :: r2)).
        cbn [In] in *; rewrite ?IH1; cbn [In]; tauto.
      * change (merge_trans (ToAction n1 :: r1) (OnChars n2 :: r2))
          with (OnChars n2 :: merge_trans (ToAction n1 :: r1) r2).
        cbn [In] in *; rewrite ?IH2; cbn [In]; tauto.
      * change (merge_trans (ToAction n1 :: r1) (ToAction n2 :: r2))
          with (if n1 =? n2 then ToAction n1 :: merge_trans r1 r2 else
                if n1 <? n2 then ToAction n1 :: merge_trans r1 (ToAction n2 :: r2)
                else ToAction n2 :: merge_trans (ToAction n1 :: r1) r2).
        destruct (Z.eqb_spec n1 n2) as [->|N]; [|destruct (n1 <? n2)];
          cbn [In] in *; rewrite ?IH1, ?IH2; cbn [In]; tauto.
Qed.

Lemma nullable_spec r : nullable r = true <-> lang r [].
Proof.
  induction r; cbn.
  - split; auto using lang.
  - split; [discriminate|]. intros H. apply lang_chars in H. discriminate.
  - split; [discriminate|]. intros H. apply lang_action in H. discriminate.
  - rewrite andb_true_iff, IHr1, IHr2. split.
    + intros [H1 H2]. exact (l_seq _ _ [] [] H1 H2).
    + intros H. destruct (lang_seq _ _ _ H) as (w1 & w2 & E & H1 & H2).
      symmetry in E. apply app_eq_nil in E as [-> ->]. auto.
  - rewrite orb_true_iff, IHr1, IHr2. split.
    + intros [H|H]; auto using lang.
    + intros H. exact (lang_alt _ _ _ H).
  - split; auto using lang.
Qed.

Lemma firstpos_poss r t : In t (firstpos r) -> In t (poss r).
Proof.
  induction r; cbn; auto.
  - destruct (nullable r1); rewrite ?in_merge, in_app_iff; tauto.
  - rewrite in_merge, in_app_iff; tauto.
Qed.
Lemma lastpos_poss r t : In t (lastpos r) -> In t (poss r).
Proof.
  induction r; cbn; auto.
  - destruct (nullable r2); rewrite ?in_merge, in_app_iff; tauto.
  - rewrite in_merge, in_app_iff; tauto.
Qed.

(** every regular expression has a word (classes are opaque here) *)
Lemma lang_inhabited r : exists w, lang r w.
Proof.
  induction r; eauto using lang.
  - destruct IHr1 as [w1 H1], IHr2 as [w2 H2]. eauto using lang.
  - destruct IHr1 as [w1 H1]. eauto using lang.
Qed.

Lemma firstpos_spec r t : In t (firstpos r) <-> exists v, lang r (t :: v).
Proof.
  induction r; cbn.
  - split; [tauto|]. intros [v H]. inversion H.
  - split.
    + intros [<-|[]]. eauto using lang.
    + intros [v H]. inversion H; auto.
  - split.
    + intros [<-|[]]. eauto using lang.
    + intros [v H]. inversion H; auto.
  - split.
    + intros H.
      assert (H' : In t (firstpos r1) \/ (nullable r1 = true /\ In t (firstpos r2))).
      { destruct (nullable r1); [rewrite in_merge in H|]; tauto. }
      destruct H' as [H'|[Hn H']].
      * apply IHr1 in H' as [v Hv]. destruct (lang_inhabited r2) as [w2 H2].
        exists (v ++ w2). exact (l_seq _ _ _ _ Hv H2).
      * apply IHr2 in H' as [v Hv]. apply nullable_spec in Hn.
        exists v. exact (l_seq _ _ [] _ Hn Hv).
    + intros [v H]. destruct (lang_seq _ _ _ H) as (w1 & w2 & E & H1 & H2).
      destruct w1 as [|a w1]; cbn in E.
      * apply nullable_spec in H1. rewrite H1, in_merge. right. apply IHr2. subst. eauto.
      * injection E as -> ->. assert (In a (firstpos r1)) by (apply IHr1; eauto).
        destruct (nullable r1); rewrite ?in_merge; auto.
  - rewrite in_merge, IHr1, IHr2. split.
    + intros [[v H]|[v H]]; eauto using lang.
    + intros [v H]. apply lang_alt in H as [H|H]; eauto.
  - rewrite IHr. split.
    + intros [v H]. exists (v ++ []). exact (l_star1 _ _ _ H (l_star0 _)).
    + intros [v H]. remember (t :: v) as w eqn:E. revert E.
      refine (lang_star_ind r (fun w => w = t :: v -> exists v', lang r (t :: v')) _ _ w H).
      * discriminate.
      * intros w1 w2 H1 _ IH E. destruct w1 as [|a w1]; cbn in E; [auto|].
        injection E as -> _. eauto.
Qed.

Lemma lastpos_word r v t : lang r (v ++ [t]) -> In t (lastpos r).
Proof.
  revert v; induction r; intros v H; cbn.
  - apply lang_empty in H. now destruct v.
  - apply lang_chars in H. apply single_split in H as (_ & -> & _). auto.
  - apply lang_action in H. apply single_split in H as (_ & -> & _). auto.
  - destruct (lang_seq _ _ _ H) as (w1 & w2 & E & H1 & H2).
    apply app_mid_split in E as [(v' & -> & E) | (u' & -> & ->)].
    + destruct v'; [|discriminate]. cbn in E. subst w2. apply nullable_spec in H2.
      rewrite H2, in_merge. eauto.
    + assert (In t (lastpos r2)) by eauto. destruct (nullable r2); rewrite ?in_merge; auto.
  - rewrite in_merge. apply lang_alt in H as [H|H]; eauto.
  - remember (v ++ [t]) as w eqn:E. revert v E.
    refine (lang_star_ind r (fun w => forall v, w = v ++ [t] -> In t (lastpos r)) _ _ w H).
    + intros v E. now destruct v.
    + intros w1 w2 H1 _ IH v E. symmetry in E.
      apply app_mid_split in E as [(v' & -> & E) | (u' & -> & ->)].
      * destruct v'; [|discriminate]. eauto.
      * eauto.
Qed.

(** a word of a linear expression may stop after a last position *)
Lemma lastpos_cut r : linear r -> forall u y v,
  lang r (u ++ y :: v) -> In y (lastpos r) -> lang r (u ++ [y]).
Proof.
  induction r; cbn [linear]; intros L u y v H Hl.
  - apply lang_empty in H. now destruct u.
  - apply lang_chars in H. apply single_split in H as (-> & -> & _). constructor.
  - apply lang_action in H. apply single_split in H as (-> & -> & _). constructor.
  - destruct L as (L1 & L2 & D).
    destruct (lang_seq _ _ _ H) as (w1 & w2 & E & H1 & H2). cbn in Hl.
    assert (Hl' : (nullable r2 = true /\ In y (lastpos r1)) \/ In y (lastpos r2)).
    { destruct (nullable r2); [rewrite in_merge in Hl|]; tauto. }
    apply app_mid_split in E as [(v' & -> & E) | (u' & -> & ->)].
    + assert (In y (poss r1)) by (eapply lang_poss; [exact H1|apply in_elt]).
      destruct Hl' as [[N Hl']|Hl']; [|apply lastpos_poss in Hl'; destruct (D y); auto].
      apply nullable_spec in N. rewrite <- (app_nil_r (u ++ [y])).
      constructor; eauto.
    + assert (In y (poss r2)) by (eapply lang_poss; [exact H2|apply in_elt]).
      destruct Hl' as [[N Hl']|Hl']; [apply lastpos_poss in Hl'; destruct (D y); auto|].
      rewrite <- app_assoc. constructor; eauto.
  - destruct L as (L1 & L2 & D). cbn in Hl. rewrite in_merge in Hl.
    apply lang_alt in H as [H|H].
    + apply l_alt1. assert (In y (poss r1)) by (eapply lang_poss; [exact H|apply in_elt]).
      destruct Hl as [Hl|Hl]; [eauto|apply lastpos_poss in Hl; destruct (D y); auto].
    + apply l_alt2. assert (In y (poss r2)) by (eapply lang_poss; [exact H|apply in_elt]).
      destruct Hl as [Hl|Hl]; [apply lastpos_poss in Hl; destruct (D y); auto|eauto].
  - remember (u ++ y :: v) as w eqn:E. revert u E.
    refine (lang_star_ind r (fun w => forall u, w = u ++ y :: v -> lang (Star r) (u ++ [y])) _ _ w H).
    + intros u E. now destruct u.
    + intros w1 w2 H1 H2 IH u E. symmetry in E.
      apply app_mid_split in E as [(v' & -> & E) | (u' & -> & ->)].
      * rewrite <- (app_nil_r (u ++ [y])). constructor; [eauto|constructor].
      * rewrite <- app_assoc. constructor; eauto.
Qed.

(** ** Follow *)
Fixpoint fol (r : regexp) (y x : transition) : Prop :=
  match r with
  | Seq r1 r2 => fol r1 y x \/ fol r2 y x \/ (In y (lastpos r1) /\ In x (firstpos r2))
  | Alt r1 r2 => fol r1 y x \/ fol r2 y x
  | Star r1 => fol r1 y x \/ (In y (lastpos r1) /\ In x (firstpos r1))
  | _ => False
  end.

Lemma fol_poss r y x : fol r y x -> In y (poss r) /\ In x (poss r).
Proof.
  induction r; cbn; try tauto; rewrite ?in_app_iff.
  - intros [H|[H|[H1 H2]]]; [apply IHr1 in H; tauto|apply IHr2 in H; tauto|].
    apply lastpos_poss in H1. apply firstpos_poss in H2. tauto.
  - intros [H|H]; [apply IHr1 in H|apply IHr2 in H]; tauto.
  - intros [H|[H1 H2]]; [auto|]. apply lastpos_poss in H1. apply firstpos_poss in H2. tauto.
Qed.

Lemma fol_word r : forall u y x v, lang r (u ++ y :: x :: v) -> fol r y x.
Proof.
  induction r; intros u y x v H; cbn.
  - apply lang_empty in H. now destruct u.
  - apply lang_chars in H. apply single_split in H as (_ & _ & [=]).
  - apply lang_action in H. apply single_split in H as (_ & _ & [=]).
  - destruct (lang_seq _ _ _ H) as (w1 & w2 & E & H1 & H2).
    apply app_mid_split in E as [(v' & -> & E) | (u' & -> & ->)]; [|eauto].
    destruct v' as [|x' v']; cbn in E.
    + subst w2. right; right. split; [eapply lastpos_word; eauto|apply firstpos_spec; eauto].
    + injection E as -> ->. eauto.
  - apply lang_alt in H as [H|H]; eauto.
  - remember (u ++ y :: x :: v) as w eqn:E. revert u E.
    refine (lang_star_ind r (fun w => forall u, w = u ++ y :: x :: v -> fol r y x \/ (In y (lastpos r) /\ In x (firstpos r))) _ _ w H).
    + intros u E. now destruct u.
    + intros w1 w2 H1 H2 IH u E. symmetry in E.
      apply app_mid_split in E as [(v' & -> & E) | (u' & -> & ->)]; [|eauto].
      destruct v' as [|x' v']; cbn in E.
      * subst w2. right. split; [eapply lastpos_word; eauto|].
        change (firstpos r) with (firstpos (Star r)). apply firstpos_spec; eauto.
      * injection E as -> ->. eauto.
Qed.

(** in a linear expression, any position may be continued by any of its followers *)
Lemma fol_extend r : linear r -> forall u y x v,
  lang r (u ++ y :: v) -> fol r y x -> exists v', lang r (u ++ y :: x :: v').
Proof.
  induction r; cbn [linear]; intros L u y x v H F; try (cbn in F; tauto).
  - destruct L as (L1 & L2 & D).
    destruct (lang_seq _ _ _ H) as (w1 & w2 & E & H1 & H2).
    apply app_mid_split in E as [(v' & -> & E) | (u' & -> & ->)].
    + assert (P1 : In y (poss r1)) by (eapply lang_poss; [exact H1|apply in_elt]).
      destruct F as [F|[F|[F1 F2]]].
      * destruct (IHr1 L1 _ _ _ _ H1 F) as [v1 Hv1]. exists (v1 ++ w2).
        replace (u ++ y :: x :: v1 ++ w2) with ((u ++ y :: x :: v1) ++ w2) by now rewrite <- app_assoc.
        now constructor.
      * apply fol_poss in F as [P2 _]. destruct (D y); auto.
      * apply lastpos_cut with (v := v') (1 := L1) (2 := H1) in F1.
        apply firstpos_spec in F2 as [v2 F2]. exists v2.
        replace (u ++ y :: x :: v2) with ((u ++ [y]) ++ x :: v2) by now rewrite <- app_assoc.
        now constructor.
    + assert (P2 : In y (poss r2)) by (eapply lang_poss; [exact H2|apply in_elt]).
      destruct F as [F|[F|[F1 F2]]].
      * apply fol_poss in F as [P1 _]. destruct (D y); auto.
      * destruct (IHr2 L2 _ _ _ _ H2 F) as [v1 Hv1]. exists v1. rewrite <- app_assoc. now constructor.
      * apply lastpos_poss in F1. destruct (D y); auto.
  - destruct L as (L1 & L2 & D). apply lang_alt in H as [H|H].
    + assert (P1 : In y (poss r1)) by (eapply lang_poss; [exact H|apply in_elt]).
      destruct F as [F|F].
      * destruct (IHr1 L1 _ _ _ _ H F) as [v1 Hv1]. exists v1. now apply l_alt1.
      * apply fol_poss in F as [P2 _]. destruct (D y); auto.
    + assert (P2 : In y (poss r2)) by (eapply lang_poss; [exact H|apply in_elt]).
      destruct F as [F|F].
      * apply fol_poss in F as [P1 _]. destruct (D y); auto.
      * destruct (IHr2 L2 _ _ _ _ H F) as [v1 Hv1]. exists v1. now apply l_alt2.
  - remember (u ++ y :: v) as w eqn:E. revert u E.
    refine (lang_star_ind r (fun w => forall u, w = u ++ y :: v -> exists v', lang (Star r) (u ++ y :: x :: v')) _ _ w H).
    + intros u E. now destruct u.
    + intros w1 w2 H1 H2 IH u E. symmetry in E.
      apply app_mid_split in E as [(v' & -> & E) | (u' & -> & ->)].
      * destruct F as [F|[F1 F2]].
        -- destruct (IHr L _ _ _ _ H1 F) as [v1 Hv1]. exists (v1 ++ w2).
           replace (u ++ y :: x :: v1 ++ w2) with ((u ++ y :: x :: v1) ++ w2) by now rewrite <- app_assoc.
           now constructor.
        -- apply lastpos_cut with (v := v') (1 := L) (2 := H1) in F1.
           apply firstpos_spec in F2 as [v2 F2]. exists (v2 ++ []).
           replace (u ++ y :: x :: v2 ++ []) with ((u ++ [y]) ++ (x :: v2) ++ [])
             by now rewrite <- app_assoc.
           constructor; [assumption|]. constructor; [assumption|constructor].
      * destruct (IH u' eq_refl) as [v1 Hv1]. exists v1. rewrite <- app_assoc. now constructor.
Qed.

(** ** Prefixes of position words *)
Definition pre (r : regexp) (u : list transition) (x : transition) : Prop :=
  exists v, lang r (u ++ x :: v).

Lemma pre_nil r x : pre r [] x <-> In x (firstpos r).
Proof. unfold pre. cbn. symmetry. apply firstpos_spec. Qed.

Lemma pre_snoc r u y x : linear r -> (pre r (u ++ [y]) x <-> pre r u y /\ fol r y x).
Proof.
  intros L. unfold pre. split.
  - intros [v H]. rewrite <- app_assoc in H. cbn in H. split; [eauto|]. eapply fol_word; eauto.
  - intros [[v H] F]. destruct (fol_extend r L _ _ _ _ H F) as [v' H'].
    exists v'. rewrite <- app_assoc. exact H'.
Qed.

(** ** Arrays *)
Lemma asub_some {A} (a : list A) i x : asub a i = Ret x -> 0 <= i < Z.of_nat (length a) /\ nth_error a (Z.to_nat i) = Some x.
Proof.
  unfold asub. destruct (Z.leb_spec 0 i); [|discriminate].
  destruct (nth_error a (Z.to_nat i)) eqn:E; [|discriminate]. intros [= ->].
  assert (Z.to_nat i < length a)%nat by (apply nth_error_Some; congruence). split; [lia|auto].
Qed.
Lemma asub_ret {A} (a : list A) i : 0 <= i < Z.of_nat (length a) -> exists x, asub a i = Ret x.
Proof.
  intros H. unfold asub. destruct (Z.leb_spec 0 i); [|lia].
  destruct (nth_error a (Z.to_nat i)) eqn:E; [eauto|]. apply nth_error_None in E. lia.
Qed.

Lemma aupd_ret {A} (a : list A) i x : 0 <= i < Z.of_nat (length a) ->
  exists a', aupd a i x = Ret a'.
Proof. intros H. unfold aupd. destruct (Z.leb_spec 0 i), (Z.ltb_spec i (Z.of_nat (length a))); cbn; eauto; lia. Qed.

Lemma aupd_spec {A} (a : list A) i x a' : aupd a i x = Ret a' ->
  0 <= i < Z.of_nat (length a) /\ length a' = length a /\
  asub a' i = Ret x /\ (forall j, j <> i -> asub a' j = asub a j).
Proof.
  unfold aupd. destruct (Z.leb_spec 0 i), (Z.ltb_spec i (Z.of_nat (length a))); cbn [andb]; try discriminate.
  intros E0; assert (E1 := E0); clear E0.
  assert (E : a' = firstn (Z.to_nat i) a ++ x :: skipn (S (Z.to_nat i)) a) by congruence.
  clear E1; subst a'.
  assert (L : (length (firstn (Z.to_nat i) a) = Z.to_nat i)%nat) by (rewrite firstn_length; lia).
  split; [lia|]. split.
  { rewrite app_length, L. pose proof (skipn_length (S (Z.to_nat i)) a) as SK.
    change (length (x :: skipn (S (Z.to_nat i)) a)) with (S (length (skipn (S (Z.to_nat i)) a))). lia. }
  split.
  - unfold asub. destruct (Z.leb_spec 0 i); [|lia].
    rewrite nth_error_app2 by lia. rewrite L, Nat.sub_diag. reflexivity.
  - intros j Hj. unfold asub. destruct (Z.leb_spec 0 j); [|reflexivity].
    assert (E : nth_error (firstn (Z.to_nat i) a ++ x :: skipn (S (Z.to_nat i)) a) (Z.to_nat j) = nth_error a (Z.to_nat j)).
    { destruct (Z.lt_ge_cases j i).
      - rewrite nth_error_app1 by lia.
        rewrite <- (firstn_skipn (Z.to_nat i) a) at 2. rewrite nth_error_app1 by lia. reflexivity.
      - rewrite nth_error_app2 by lia. rewrite L.
        replace (Z.to_nat j - Z.to_nat i)%nat with (S (Z.to_nat j - Z.to_nat i - 1))%nat by lia.
        cbn [nth_error].
        rewrite <- (firstn_skipn (S (Z.to_nat i)) a) at 2. rewrite nth_error_app2.
        + rewrite firstn_length. f_equal. lia.
        + rewrite firstn_length. lia. }
    now rewrite E.
Qed.

(** ** followpos *)

(** [tin v p x]: x is in the set at index p *)
Definition tin (v : list (list transition)) (p : Z) (x : transition) : Prop :=
  exists l, asub v p = Ret l /\ In x l.

Lemma tin_upd v p l v' : aupd v p l = Ret v' -> forall q x,
  tin v' q x <-> (if q =? p then In x l else tin v q x).
Proof.
  intros E q x. destruct (aupd_spec _ _ _ _ E) as (_ & _ & Es & Eo). unfold tin.
  destruct (Z.eqb_spec q p) as [->|N].
  - rewrite Es. split; [intros (l0 & [= <-] & H); auto|eauto].
  - rewrite (Eo _ N). tauto.
Qed.

Lemma fill_pos_spec first t v v' : fill_pos first t v = Ret v' ->
  length v' = length v /\
  forall q x, tin v' q x <-> tin v q x \/ (t = OnChars q /\ In x first).
Proof.
  destruct t as [p|a]; cbn.
  - destruct (asub v p) as [old|?| |] eqn:E; cbn; try discriminate. intros U.
    destruct (aupd_spec _ _ _ _ U) as (_ & Le & _). split; [exact Le|]. intros q x.
    rewrite (tin_upd _ _ _ _ U q x). destruct (Z.eqb_spec q p) as [->|N].
    + rewrite in_merge. unfold tin. rewrite E. split.
      * intros [H|H]; [auto|left; eauto].
      * intros [(l & [= <-] & H)|[_ H]]; auto.
    + split; [auto|]. intros [H|[[= ->] _]]; [auto|congruence].
  - intros [= <-]. split; [auto|]. intros q x. split; [auto|]. intros [H|[[=] _]]; auto.
Qed.

Lemma fill_pos_list first ts v v' : appM (fill_pos first) ts v = Ret v' ->
  length v' = length v /\
  forall q x, tin v' q x <-> tin v q x \/ (In (OnChars q) ts /\ In x first).
Proof.
  revert v; induction ts as [|t ts IH]; cbn; intros v.
  - intros [= <-]. split; [auto|]. intros; tauto.
  - destruct (fill_pos first t v) as [v1|?| |] eqn:E; cbn; try discriminate. intros H.
    destruct (fill_pos_spec _ _ _ _ E) as [L1 T1]. destruct (IH _ H) as [L2 T2].
    split; [congruence|]. intros q x. rewrite T2, T1. intuition congruence.
Qed.

Lemma fill_spec r : forall v v', fill r v = Ret v' ->
  length v' = length v /\
  forall q x, tin v' q x <-> tin v q x \/ fol r (OnChars q) x.
Proof.
  induction r; cbn; intros v v' H;
    try (injection H as <-; split; [reflexivity|]; intros; tauto).
  - destruct (fill r1 v) as [v1|?| |] eqn:E1; cbn in H; try discriminate.
    destruct (fill r2 v1) as [v2|?| |] eqn:E2; cbn in H; try discriminate.
    destruct (IHr1 _ _ E1) as [La Ta], (IHr2 _ _ E2) as [Lb Tb].
    destruct (fill_pos_list _ _ _ _ H) as [Lc Tc].
    split; [congruence|]. intros q x. rewrite Tc, Tb, Ta. tauto.
  - destruct (fill r1 v) as [v1|?| |] eqn:E1; cbn in H; try discriminate.
    destruct (IHr1 _ _ E1) as [La Ta], (IHr2 _ _ H) as [Lb Tb].
    split; [congruence|]. intros q x. rewrite Tb, Ta. tauto.
  - destruct (fill r v) as [v1|?| |] eqn:E1; cbn in H; try discriminate.
    destruct (IHr _ _ E1) as [La Ta].
    destruct (fill_pos_list _ _ _ _ H) as [Lc Tc].
    split; [congruence|]. intros q x. rewrite Tc, Ta. tauto.
Qed.

(** fill does not fail if all positions are inside the array *)
Definition inside (n : Z) (t : transition) : Prop :=
  match t with OnChars p => 0 <= p < n | ToAction _ => True end.

Lemma fill_pos_list_ret first ts v :
  (forall t, In t ts -> inside (Z.of_nat (length v)) t) -> exists v', appM (fill_pos first) ts v = Ret v'.
Proof.
  revert v; induction ts as [|t ts IH]; cbn; intros v H; [eauto|].
  assert (E : exists v1, fill_pos first t v = Ret v1).
  { specialize (H t (or_introl eq_refl)). destruct t as [p|a]; cbn in *; [|eauto].
    destruct (asub_ret v p H) as [old ->]. cbn. apply aupd_ret. exact H. }
  destruct E as [v1 E]. rewrite E. cbn. apply IH.
  destruct (fill_pos_spec _ _ _ _ E) as [-> _]. auto.
Qed.

Lemma fill_ret r : forall v, (forall t, In t (poss r) -> inside (Z.of_nat (length v)) t) ->
  exists v', fill r v = Ret v'.
Proof.
  induction r; cbn; intros v H; eauto.
  - destruct (IHr1 v) as [v1 E1]; [intros; apply H; rewrite in_app_iff; auto|]. rewrite E1. cbn.
    destruct (fill_spec _ _ _ E1) as [L1 _].
    destruct (IHr2 v1) as [v2 E2]; [intros; rewrite L1; apply H; rewrite in_app_iff; auto|]. rewrite E2. cbn.
    destruct (fill_spec _ _ _ E2) as [L2 _].
    apply fill_pos_list_ret. intros t Ht. rewrite L2, L1. apply H, in_app_iff. left. now apply lastpos_poss.
  - destruct (IHr1 v) as [v1 E1]; [intros; apply H; rewrite in_app_iff; auto|]. rewrite E1. cbn.
    destruct (fill_spec _ _ _ E1) as [L1 _].
    apply IHr2. intros; rewrite L1; apply H; rewrite in_app_iff; auto.
  - destruct (IHr v H) as [v1 E1]. rewrite E1. cbn. destruct (fill_spec _ _ _ E1) as [L1 _].
    apply fill_pos_list_ret. intros t Ht. rewrite L1. apply H. now apply lastpos_poss.
Qed.

Lemma tin_repeat n q x : ~ tin (repeat [] n) q x.
Proof.
  intros (l & E & H). apply asub_some in E as [_ E]. apply nth_error_In, repeat_spec in E. now subst.
Qed.

Lemma followpos_spec n l v : followpos n l = Ret v ->
  length v = n /\
  forall q x, tin v q x <-> exists e, In e l /\ fol (snd e) (OnChars q) x.
Proof.
  unfold followpos. intros H.
  assert (G : forall l v0 v1, appM (fun x : name * regexp => fill (snd x)) l v0 = Ret v1 ->
    length v1 = length v0 /\
    forall q x, tin v1 q x <-> tin v0 q x \/ exists e, In e l /\ fol (snd e) (OnChars q) x).
  { clear. induction l as [|e l IH]; cbn; intros v0 v1 H.
    - injection H as <-. split; [auto|]. intros q x. split; [auto|]. intros [|(e & [] & _)]; auto.
    - destruct (fill (snd e) v0) as [v2|?| |] eqn:E; cbn in H; try discriminate.
      destruct (fill_spec _ _ _ E) as [L1 T1], (IH _ _ H) as [L2 T2].
      split; [congruence|]. intros q x. rewrite T2, T1. split.
      + intros [[H1|H1]|(e' & H1 & H2)]; [auto| |]; right; [exists e|exists e']; auto.
      + intros [H1|(e' & [<-|H1] & H2)]; [auto|auto|]. right. eauto. }
  destruct (G _ _ _ H) as [L T]. rewrite repeat_length in L. split; [exact L|].
  intros q x. rewrite T. split; [|auto]. intros [H1|H1]; [now apply tin_repeat in H1|auto].
Qed.

Lemma followpos_ret n l :
  (forall e t, In e l -> In t (poss (snd e)) -> inside (Z.of_nat n) t) -> exists v, followpos n l = Ret v.
Proof.
  unfold followpos. intros H.
  assert (G : forall v0, length v0 = n -> exists v1, appM (fun x : name * regexp => fill (snd x)) l v0 = Ret v1).
  { induction l as [|e l IH]; cbn; intros v0 L; [eauto|].
    destruct (fill_ret (snd e) v0) as [v1 E]; [intros t Ht; rewrite L; eapply H; [left; reflexivity|exact Ht]|].
    rewrite E. cbn. apply IH.
    - intros e' t He Ht. eapply H; [right; exact He|exact Ht].
    - destruct (fill_spec _ _ _ E) as [L1 _]. congruence. }
  apply G, repeat_length.
Qed.

(** ** Encoding *)

(** a word of characters spelled by a position word, with table T *)
Definition spells (T : list (list Z)) (t : transition) (c : Z) : Prop :=
  exists p cl, t = OnChars p /\ asub T p = Ret cl /\ In c cl.

Lemma asub_app1 {A} (a b : list A) i x : asub a i = Ret x -> asub (a ++ b) i = Ret x.
Proof.
  intros H. apply asub_some in H as [R E]. unfold asub. destruct (Z.leb_spec 0 i); [|lia].
  rewrite nth_error_app1 by lia. now rewrite E.
Qed.

(** positions of [r] are the positions [lo, hi) *)
Definition within (r : regexp) (lo hi : Z) : Prop :=
  forall t, In t (poss r) -> exists p, t = OnChars p /\ lo <= p < hi.

Lemma encode_regexp_spec : forall (r : re) chars n r' chars' n',
  encode_regexp r (chars, n) = Ret (r', (chars', n')) ->
  n = Z.of_nat (length chars) ->
  n' = Z.of_nat (length chars') /\ n <= n' /\
  rev chars' = rev chars ++ classes r /\
  linear r' /\ within r' n n' /\
  (forall T, (exists ext, T = rev chars' ++ ext) -> forall w,
     matches [] r w <-> exists u, lang r' u /\ Forall2 (spells T) u w).
Proof.
  induction r; cbn; intros chars n r' chars' n' H Hn.
  - injection H as <- <- <-. split; [auto|]. split; [lia|]. split; [now rewrite app_nil_r|].
    split; [exact I|]. split; [intros t []|]. intros T _ w. split.
    + inversion 1; subst. exists []. split; constructor.
    + intros (u & Hu & F). apply lang_empty in Hu. subst. inversion F. constructor.
  - injection H as <- <- <-. cbn [length]. split; [lia|]. split; [lia|]. split; [reflexivity|].
    split; [exact I|]. split.
    { intros t [<-|[]]. exists n. split; [auto|lia]. }
    intros T [ext ->] w.
    assert (EN : asub (rev (cl :: chars) ++ ext) n = Ret cl).
    { apply asub_app1. cbn. unfold asub. destruct (Z.leb_spec 0 n); [|lia].
      rewrite nth_error_app2; rewrite rev_length; [|lia].
      replace (Z.to_nat n - length chars)%nat with O by lia. reflexivity. }
    split.
    + inversion 1; subst. exists [OnChars (Z.of_nat (length chars))]. split; [constructor|].
      constructor; [|constructor]. exists (Z.of_nat (length chars)), cl. auto.
    + intros (u & Hu & F). apply lang_chars in Hu. subst u.
      inversion F as [|a c l1 l2 S1 F1]; subst. inversion F1; subst.
      destruct S1 as (p & cl' & [= <-] & E & Hin). rewrite EN in E. injection E as <-.
      now constructor.
  - destruct (encode_regexp r1 (chars, n)) as [[a [ca na]]|?| |] eqn:E1; cbn in H; try discriminate.
    destruct (encode_regexp r2 (ca, na)) as [[b [cb nb]]|?| |] eqn:E2; cbn in H; try discriminate.
    injection H as <- <- <-.
    destruct (IHr1 _ _ _ _ _ E1 Hn) as (A1 & A2 & A3 & A4 & A5 & A6).
    destruct (IHr2 _ _ _ _ _ E2 A1) as (B1 & B2 & B3 & B4 & B5 & B6).
    split; [auto|]. split; [lia|]. split; [rewrite B3, A3; now rewrite <- app_assoc|].
    split; [|split].
    + cbn. split; [auto|]. split; [auto|]. intros t H1 H2.
      destruct (A5 _ H1) as (p & -> & R1), (B5 _ H2) as (q & [= <-] & R2). lia.
    + intros t. cbn. rewrite in_app_iff. intros [H1|H1].
      * destruct (A5 _ H1) as (p & -> & R1). exists p. split; [auto|lia].
      * destruct (B5 _ H1) as (p & -> & R1). exists p. split; [auto|lia].
    + intros T [ext ET] w.
      assert (PA : exists ext, T = rev ca ++ ext).
      { exists (classes r2 ++ ext). rewrite ET, B3. now rewrite <- app_assoc. }
      specialize (A6 T PA). specialize (B6 T (ex_intro _ ext ET)). split.
      * inversion 1 as [| |? ? ? w1 w2 M1 M2| | | | |]; subst.
        apply A6 in M1 as (u1 & L1 & F1). apply B6 in M2 as (u2 & L2 & F2).
        exists (u1 ++ u2). split; [now constructor|now apply Forall2_app].
      * intros (u & Lu & F). destruct (lang_seq _ _ _ Lu) as (u1 & u2 & -> & L1 & L2).
        apply Forall2_app_inv_l in F as (w1 & w2 & F1 & F2 & ->).
        constructor; [apply A6|apply B6]; eauto.
  - destruct (encode_regexp r1 (chars, n)) as [[a [ca na]]|?| |] eqn:E1; cbn in H; try discriminate.
    destruct (encode_regexp r2 (ca, na)) as [[b [cb nb]]|?| |] eqn:E2; cbn in H; try discriminate.
    injection H as <- <- <-.
    destruct (IHr1 _ _ _ _ _ E1 Hn) as (A1 & A2 & A3 & A4 & A5 & A6).
    destruct (IHr2 _ _ _ _ _ E2 A1) as (B1 & B2 & B3 & B4 & B5 & B6).
    split; [auto|]. split; [lia|]. split; [rewrite B3, A3; now rewrite <- app_assoc|].
    split; [|split].
    + cbn. split; [auto|]. split; [auto|]. intros t H1 H2.
      destruct (A5 _ H1) as (p & -> & R1), (B5 _ H2) as (q & [= <-] & R2). lia.
    + intros t. cbn. rewrite in_app_iff. intros [H1|H1].
      * destruct (A5 _ H1) as (p & -> & R1). exists p. split; [auto|lia].
      * destruct (B5 _ H1) as (p & -> & R1). exists p. split; [auto|lia].
    + intros T [ext ET] w.
      assert (PA : exists ext, T = rev ca ++ ext).
      { exists (classes r2 ++ ext). rewrite ET, B3. now rewrite <- app_assoc. }
      specialize (A6 T PA). specialize (B6 T (ex_intro _ ext ET)). split.
      * inversion 1 as [| | |? ? ? ? M1|? ? ? ? M1| | |]; subst.
        -- apply A6 in M1 as (u1 & L1 & F1). eauto using lang.
        -- apply B6 in M1 as (u1 & L1 & F1). eauto using lang.
      * intros (u & Lu & F). apply lang_alt in Lu as [L1|L1].
        -- apply m_alt1, A6; eauto.
        -- apply m_alt2, B6; eauto.
  - destruct (encode_regexp r (chars, n)) as [[a [ca na]]|?| |] eqn:E1; cbn in H; try discriminate.
    injection H as <- <- <-.
    destruct (IHr _ _ _ _ _ E1 Hn) as (A1 & A2 & A3 & A4 & A5 & A6).
    split; [auto|]. split; [lia|]. split; [auto|]. split; [auto|]. split; [auto|].
    intros T PT w. specialize (A6 T PT). split.
    + intros M. clear IHr E1 Hn A1 A2 A3 A4 A5 PT. remember (@nil (name * re)) as ds eqn:Eds. remember (Repetition r) as q eqn:Eq.
      revert Eds Eq. induction M; intros Eds Eq; try discriminate; subst; try injection Eq as ->.
      * exists []. split; constructor.
      * apply A6 in M1 as (u1 & L1 & F1). destruct (IHM2 A6 eq_refl eq_refl) as (u2 & L2 & F2).
        exists (u1 ++ u2). split; [now constructor|now apply Forall2_app].
    + intros (u & Lu & F). revert w F.
      refine (lang_star_ind a (fun u => forall w, Forall2 (spells T) u w -> matches [] (Repetition r) w) _ _ u Lu).
      * intros w F. inversion F. constructor.
      * intros u1 u2 L1 _ IH w F. apply Forall2_app_inv_l in F as (w1 & w2 & F1 & F2 & ->).
        apply m_rep1; [apply A6; eauto|auto].
  - discriminate.
Qed.
