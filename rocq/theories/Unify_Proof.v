(** * The unifier *)

From Coq Require Import ZArith List Bool Permutation Sorted Lia Arith.
From Verif Require Import Unify_Model Unify_Spec Unify_Base Unify_Sol Unify_Norm Unify_Meas Unify_Free Unify_Attr
  Unify_Link Unify_Rows.
Import ListNotations.
Open Scope Z_scope.

Lemma sorted_app {A} (a b : list (lab * A)) : sorted (a ++ b) <->
  sorted a /\ sorted b /\ forall x y, In x a -> In y b -> lt_lab (fst x) (fst y) = true.
Proof.
  induction a as [|z a IH]; cbn.
  - split; [intros H; split; [apply sorted_nil|split; [exact H|intros x y []]]|tauto].
  - split.
    + intros H. apply sorted_inv in H as [H1 H2]. apply IH in H1 as (A1 & A2 & A3).
      split; [|split].
      * apply sorted_cons; [exact A1|]. intros y J. apply H2, in_app_iff. auto.
      * exact A2.
      * intros x y [<-|J] K; [apply H2, in_app_iff; auto|auto].
    + intros (A1 & A2 & A3). apply sorted_inv in A1 as [A0 A1]. apply sorted_cons.
      * apply IH. split; [exact A0|split; [exact A2|auto]].
      * intros y J. apply in_app_iff in J as [J|J]; auto.
Qed.

Lemma nodup_app {A} (a b : list A) : NoDup a -> NoDup b -> (forall x, In x a -> ~ In x b) -> NoDup (a ++ b).
Proof.
  induction a as [|x a IH]; intros Na Nb D; cbn; [exact Nb|]. inversion Na; subst. constructor.
  - intros J. apply in_app_iff in J as [J|J]; [auto|]. exact (D x (or_introl eq_refl) J).
  - apply IH; auto. intros y J. apply D. right. exact J.
Qed.

Lemma labels_app {A} (a b : list (lab * A)) : labels (a ++ b) = labels a ++ labels b.
Proof. apply map_app. Qed.

Lemma in_lab {A} (x : lab * A) acc fs l : In l (labels (rev (x :: acc) ++ fs)) <->
  In l (labels (rev acc ++ fs)) \/ l = fst x.
Proof.
  cbn [rev]. rewrite !labels_app, !in_app_iff. cbn. intuition.
Qed.

Lemma in_lab2 {A} (x : lab * A) acc fs l : In l (labels (rev acc ++ x :: fs)) <->
  In l (labels (rev acc ++ fs)) \/ l = fst x.
Proof. rewrite !labels_app, !in_app_iff. cbn. intuition. Qed.

(** Taking a field [l] out of the row [m] on the other side. *)
Lemma side_ext l (d1 d2 : tree) (a b m m' : row) : NoDup (labels ((l, d1) :: a)) ->
  Permutation ((l, d2) :: m') m ->
  (Permutation ((l, d1) :: a) (b ++ m) <-> d1 = d2 /\ Permutation a (b ++ m')).
Proof.
  intros N P.
  assert (P2 : Permutation (b ++ m) ((l, d2) :: b ++ m')).
  { transitivity (b ++ (l, d2) :: m'); [apply Permutation_app_head; symmetry; exact P|].
    symmetry. apply Permutation_middle. }
  split.
  - intros H. apply (perm_same l d1 d2 a (b ++ m')); [exact N|]. transitivity (b ++ m); assumption.
  - intros [<- H]. transitivity ((l, d1) :: b ++ m'); [apply perm_skip, H|symmetry; exact P2].
Qed.

Section P.
Variables (G : nat -> tninfo) (vp : bool).
Let SP {A} := @SP G vp A.

Definition Uspec (un : ty -> ty -> U unit) : Prop := forall L h t1 t2,
  inv G L h -> wf_ty G h t1 -> wf_ty G h t2 ->
  SP L h (un t1 t2) (fun _ L' h' => WW G L h L' h') (fun p => den p t1 = den p t2).

Definition wf_fs (h : heap) (fs : list (lab * ty)) : Prop := forall l t, In (l, t) fs -> wf_ty G h t.

(** The state of the loop in unifyRec. *)
Record RI (L : nat -> list lab) (h : heap) (fs1 : list (lab * ty)) (rho1 : nat)
    (fs2 : list (lab * ty)) (rho2 : nat) (acc : list (lab * ty)) : Prop := mkRI
  { ri_inv : inv G L h;
    ri_wf1 : wf_fs h fs1;
    ri_wf2 : wf_fs h fs2;
    ri_wfa : wf_fs h acc;
    ri_b1 : (rho1 < length (ws h))%nat;
    ri_b2 : (rho2 < length (ws h))%nat;
    ri_s1 : sorted (rev acc ++ fs1);
    ri_s2 : sorted (rev acc ++ fs2);
    ri_l1 : same_set (L rho1) (labels (rev acc ++ fs1));
    ri_l2 : same_set (L rho2) (labels (rev acc ++ fs2)) }.

Lemma wf_fs_grows h h' fs : grows h h' -> wf_fs h fs -> wf_fs h' fs.
Proof. intros GR W l t J. exact (wf_ty_grows _ _ _ _ GR (W l t J)). Qed.

Lemma wf_fs_cons h l t fs : wf_fs h ((l, t) :: fs) <-> wf_ty G h t /\ wf_fs h fs.
Proof.
  split.
  - intros W. split; [apply (W l); left; reflexivity|]. intros l0 t0 J. apply (W l0). right. exact J.
  - intros [T W] l0 t0 [J|J]; [injection J as <- <-; exact T|exact (W _ _ J)].
Qed.

Lemma ri_post L h fs1 rho1 fs2 rho2 acc L' h' Q : RI L h fs1 rho1 fs2 rho2 acc -> Post G vp L h L' h' Q ->
  RI L' h' fs1 rho1 fs2 rho2 acc.
Proof.
  intros [A1 A2 A3 A4 A5 A6 A7 A8 A9 A10] P. pose proof (po_grows _ _ _ _ _ _ _ P) as GR.
  constructor; try assumption.
  - apply P.
  - exact (wf_fs_grows _ _ _ GR A2).
  - exact (wf_fs_grows _ _ _ GR A3).
  - exact (wf_fs_grows _ _ _ GR A4).
  - destruct GR as (_ & _ & GR). lia.
  - destruct GR as (_ & _ & GR). lia.
  - rewrite (po_L _ _ _ _ _ _ _ P) by exact A5. exact A9.
  - rewrite (po_L _ _ _ _ _ _ _ P) by exact A6. exact A10.
Qed.

Lemma ri_sym L h fs1 rho1 fs2 rho2 acc : RI L h fs1 rho1 fs2 rho2 acc -> RI L h fs2 rho2 fs1 rho1 acc.
Proof. intros []. constructor; assumption. Qed.

Lemma ri_nodup L h fs1 rho1 fs2 rho2 acc p : RI L h fs1 rho1 fs2 rho2 acc -> eqs L h p ->
  NoDup (labels (denf p fs1 ++ dw p rho1)).
Proof.
  intros [A1 A2 A3 A4 A5 A6 A7 A8 A9 A10] E.
  destruct (rows_ok G L h p (proj1 A1) E rho1 A5) as [S D].
  rewrite labels_app, labels_denf. apply nodup_app.
  - apply sorted_app in A7 as (_ & A7 & _). apply sorted_nodup, A7.
  - apply sorted_nodup, S.
  - intros l J K. apply (D l K). apply A9. rewrite labels_app. apply in_app_iff. right. exact J.
Qed.

Lemma stable_perm L h fs1 rho1 fs2 rho2 acc : RI L h fs1 rho1 fs2 rho2 acc ->
  stable h (fun p => Permutation (denf p fs1 ++ dw p rho1) (denf p fs2 ++ dw p rho2)).
Proof.
  intros [A1 A2 A3 A4 A5 A6 A7 A8 A9 A10] p p' AG H.
  rewrite <- (denf_agree G h p p' fs1 AG A2), <- (denf_agree G h p p' fs2 AG A3).
  rewrite <- (proj2 (proj2 AG) rho1 A5), <- (proj2 (proj2 AG) rho2 A6). exact H.
Qed.

Definition RR (fs1 : list (lab * ty)) (rho1 : nat) (acc : list (lab * ty))
    (r : list (lab * ty) * nat) (L' : nat -> list lab) (h' : heap) : Prop :=
  wf_fs h' (fst r) /\ sorted (fst r) /\ (snd r < length (ws h'))%nat /\
  same_set (L' (snd r)) (labels (fst r)) /\
  forall p, eqs L' h' p ->
    Permutation (denf p (fst r) ++ dw p (snd r)) (denf p acc ++ denf p fs1 ++ dw p rho1).

(** The field in front of the first record is in neither the rest of it nor in
    the second record's row. *)
Lemma ri_front L h l t fs1 rho1 fs2 rho2 acc : RI L h ((l, t) :: fs1) rho1 fs2 rho2 acc ->
  (forall x, In x (labels fs2) -> lt_lab l x = true) -> ~ In l (L rho2).
Proof.
  intros [A1 A2 A3 A4 A5 A6 A7 A8 A9 A10] F J. apply A10 in J. rewrite labels_app in J.
  apply in_app_iff in J as [J|J].
  - apply labels_in in J as [x J]. apply sorted_app in A7 as (_ & _ & A7).
    specialize (A7 _ (l, t) J (or_introl eq_refl)). cbn in A7. rewrite lt_irrefl in A7. discriminate.
  - specialize (F _ J). rewrite lt_irrefl in F. discriminate.
Qed.

(** Moving the front field of the first record to the accumulator, after taking
    it out of the second record's row. *)
Lemma ri_move L h l t x fs1 rho1 fs2 rho2 rho2' acc : RI L h ((l, t) :: fs1) rho1 fs2 rho2 acc ->
  wf_ty G h x ->
  (forall y, In y (labels fs2) -> lt_lab l y = true) -> (rho2' < length (ws h))%nat ->
  same_set (L rho2') (l :: L rho2) -> RI L h fs1 rho1 fs2 rho2' ((l, x) :: acc).
Proof.
  intros [A1 A2 A3 A4 A5 A6 A7 A8 A9 A10] WX F B S. apply wf_fs_cons in A2 as [A0 A2].
  assert (AC : forall y, In y (rev acc) -> lt_lab (fst y) l = true).
  { intros y J. apply sorted_app in A7 as (_ & _ & A7). exact (A7 y (l, t) J (or_introl eq_refl)). }
  constructor; auto.
  - apply wf_fs_cons. auto.
  - cbn [rev]. rewrite <- app_assoc. cbn. apply sorted_app in A7 as (B1 & B2 & B3). apply sorted_app.
    split; [exact B1|]. apply sorted_inv in B2 as [B2 B4]. split.
    + apply sorted_cons; [exact B2|]. intros y J. exact (B4 y J).
    + intros y z J [<-|K]; [exact (AC y J)|apply B3; [exact J|right; exact K]].
  - cbn [rev]. rewrite <- app_assoc. cbn. apply sorted_app in A8 as (B1 & B2 & B3). apply sorted_app.
    split; [exact B1|]. split.
    + apply sorted_cons; [exact B2|]. intros y J. apply F. apply in_map. exact J.
    + intros y z J [<-|K]; [exact (AC y J)|apply B3; assumption].
  - intros y. rewrite (A9 y), in_lab, in_lab2. reflexivity.
  - intros y. rewrite (S y), in_lab. cbn. rewrite (A10 y). intuition.
Qed.

(** Moving a field both records have to the accumulator. *)
Lemma ri_both L h lab1 t1 t2 fs1' rho1 fs2' rho2 acc :
  RI L h ((lab1, t1) :: fs1') rho1 ((lab1, t2) :: fs2') rho2 acc ->
  RI L h fs1' rho1 fs2' rho2 ((lab1, t1) :: acc).
Proof.
  intros RI0. destruct RI0 as [A1 A2 A3 A4 A5 A6 A7 A8 A9 A10].
  apply wf_fs_cons in A2 as [T1 A2]. apply wf_fs_cons in A3 as [_ A3]. constructor; auto.
  - apply wf_fs_cons. auto.
  - cbn [rev]. rewrite <- app_assoc. exact A7.
  - cbn [rev]. rewrite <- app_assoc. cbn. apply sorted_app in A8 as (B1 & B2 & B3). apply sorted_app.
    split; [exact B1|]. apply sorted_inv in B2 as [B2 B4]. split.
    + apply sorted_cons; [exact B2|exact B4].
    + intros y z J [<-|K]; [exact (B3 y (lab1, t2) J (or_introl eq_refl))|apply B3; [exact J|right; exact K]].
  - intros l. rewrite (A9 l), in_lab, in_lab2. reflexivity.
  - intros l. rewrite (A10 l), in_lab, in_lab2. reflexivity.
Qed.

Lemma unifyRecAcc_sp un : Uspec un -> forall n L h fs1 rho1 fs2 rho2 acc,
  RI L h fs1 rho1 fs2 rho2 acc ->
  SP L h (unifyRecAcc n un vp fs1 rho1 fs2 rho2 acc) (fun r L' h' => RR fs1 rho1 acc r L' h' /\ WW G L h L' h')
    (fun p => Permutation (denf p fs1 ++ dw p rho1) (denf p fs2 ++ dw p rho2)).
Proof.
  intros US. induction n as [|n IH]; intros L h fs1 rho1 fs2 rho2 acc RI0; [split; discriminate|].
  (* take the front field of the first record from the second one's row *)
  assert (C1 : forall lab1 t1 fs1', fs1 = (lab1, t1) :: fs1' ->
    (forall y, In y (labels fs2) -> lt_lab lab1 y = true) ->
    SP L h (do '(t2, rho2') <- extractLab vp lab1 rho2; un t1 t2;;
            unifyRecAcc n un vp fs1' rho1 fs2 rho2' ((lab1, t1) :: acc)) (fun r L' h' => RR fs1 rho1 acc r L' h' /\ WW G L h L' h')
      (fun p => Permutation (denf p fs1 ++ dw p rho1) (denf p fs2 ++ dw p rho2))).
  { intros l t1 fs1' -> F. pose proof (ri_front _ _ _ _ _ _ _ _ _ RI0 F) as NI.
    eapply (sp_bind G vp); [eapply stable_perm; exact RI0| |..].
    - apply (extractLab_sp G vp L h l rho2); [apply RI0|apply RI0|exact NI].
    - intros p Sp H. assert (J : In (l, den p t1) (denf p fs2 ++ dw p rho2)).
      { apply (Permutation_in _ H). left. reflexivity. }
      apply in_app_iff in J as [J|J]; [|exact (in_labels _ _ _ J)].
      apply in_labels in J. rewrite labels_denf in J. apply F in J. rewrite lt_irrefl in J. discriminate.
    - intros [t2 rho2'] L1 h1 P1 (T2 & B2 & S2 & M2 & D2). cbn [fst snd] in *.
      assert (W1 : WW G L h L1 h1).
      { intros Lam LB. destruct (M2 Lam) as [X Y]; [|exact LB|split; [exact X|left; exact Y]].
        apply (LB rho1 (ri_b1 _ _ _ _ _ _ _ RI0)), (ri_l1 _ _ _ _ _ _ _ RI0), in_lab2. right. reflexivity. }
      pose proof (ri_post _ _ _ _ _ _ _ _ _ _ RI0 P1) as RI1.
      assert (T1 : wf_ty G h1 t1) by (apply (ri_wf1 _ _ _ _ _ _ _ RI1 l); left; reflexivity).
      rewrite <- (po_L _ _ _ _ _ _ _ P1 rho2 (ri_b2 _ _ _ _ _ _ _ RI0)) in S2.
      assert (EQ : forall p, eqs L1 h1 p -> (Permutation (denf p ((l, t1) :: fs1') ++ dw p rho1) (denf p fs2 ++ dw p rho2) <->
         den p t1 = den p t2 /\ Permutation (denf p fs1' ++ dw p rho1) (denf p fs2 ++ dw p rho2'))).
      { intros p Ep. apply side_ext; [exact (ri_nodup _ _ _ _ _ _ _ p RI1 Ep)|exact (D2 p Ep)]. }
      eapply (sp_bind G vp); [eapply stable_perm; exact RI1|apply US; [apply RI1|exact T1|exact T2]| |].
      + intros p Sp H. apply EQ in H; [tauto|exact (sat_eqs _ _ _ _ _ Sp)].
      + intros ux L2 h2 P2 W2. cbv beta in W2. clear ux.
        assert (RI2 : RI L2 h2 fs1' rho1 fs2 rho2' ((l, t1) :: acc)).
        { eapply ri_post; [|exact P2]. eapply ri_move; eauto. }
        eapply (sp_conv G vp); [exact (IH _ _ _ _ _ _ _ RI2)|..].
        * intros p Ep. apply (po_eqs _ _ _ _ _ _ _ P2) in Ep as [Ep DE]. rewrite (EQ p Ep). tauto.
        * intros [fs'' rho''] L3 h3 P3 [(R1 & R2 & R3 & R4 & R5) W3]. cbn [fst snd] in *.
          split; [|exact (WW_trans _ _ _ _ _ _ _ W1 (WW_trans _ _ _ _ _ _ _ W2 W3))].
          split; [exact R1|split; [exact R2|split; [exact R3|split; [exact R4|]]]].
          intros p Ep. cbn [fst snd]. rewrite (R5 p Ep). cbn. apply Permutation_middle. }
  (* and the other way round *)
  assert (C2 : forall lab2 t2 fs2', fs2 = (lab2, t2) :: fs2' ->
    (forall y, In y (labels fs1) -> lt_lab lab2 y = true) ->
    SP L h (do '(t1, rho1') <- extractLab vp lab2 rho1; un t1 t2;;
            unifyRecAcc n un vp fs1 rho1' fs2' rho2 ((lab2, t2) :: acc)) (fun r L' h' => RR fs1 rho1 acc r L' h' /\ WW G L h L' h')
      (fun p => Permutation (denf p fs1 ++ dw p rho1) (denf p fs2 ++ dw p rho2))).
  { intros l t2 fs2' -> F. pose proof (ri_front _ _ _ _ _ _ _ _ _ (ri_sym _ _ _ _ _ _ _ RI0) F) as NI.
    eapply (sp_bind G vp); [eapply stable_perm; exact RI0| |..].
    - apply (extractLab_sp G vp L h l rho1); [apply RI0|apply RI0|exact NI].
    - intros p Sp H. assert (J : In (l, den p t2) (denf p fs1 ++ dw p rho1)).
      { apply (Permutation_in _ (Permutation_sym H)). left. reflexivity. }
      apply in_app_iff in J as [J|J]; [|exact (in_labels _ _ _ J)].
      apply in_labels in J. rewrite labels_denf in J. apply F in J. rewrite lt_irrefl in J. discriminate.
    - intros [t1 rho1'] L1 h1 P1 (T1 & B1 & S1 & M1 & D1). cbn [fst snd] in *.
      assert (W1 : WW G L h L1 h1).
      { intros Lam LB. destruct (M1 Lam) as [X Y]; [|exact LB|split; [exact X|left; exact Y]].
        apply (LB rho2 (ri_b2 _ _ _ _ _ _ _ RI0)), (ri_l2 _ _ _ _ _ _ _ RI0), in_lab2. right. reflexivity. }
      pose proof (ri_post _ _ _ _ _ _ _ _ _ _ RI0 P1) as RI1.
      assert (T2 : wf_ty G h1 t2) by (apply (ri_wf2 _ _ _ _ _ _ _ RI1 l); left; reflexivity).
      rewrite <- (po_L _ _ _ _ _ _ _ P1 rho1 (ri_b1 _ _ _ _ _ _ _ RI0)) in S1.
      assert (EQ : forall p, eqs L1 h1 p -> (Permutation (denf p fs1 ++ dw p rho1) (denf p ((l, t2) :: fs2') ++ dw p rho2) <->
         den p t1 = den p t2 /\ Permutation (denf p fs1 ++ dw p rho1') (denf p fs2' ++ dw p rho2))).
      { intros p Ep.
        pose proof (side_ext l (den p t2) (den p t1) (denf p fs2' ++ dw p rho2) (denf p fs1) (dw p rho1) (dw p rho1')
          (ri_nodup _ _ _ _ _ _ _ p (ri_sym _ _ _ _ _ _ _ RI1) Ep) (D1 p Ep)) as X.
        split.
        - intros H. apply Permutation_sym in H. apply X in H as [H1 H2]. split; [auto|apply Permutation_sym, H2].
        - intros [H1 H2]. apply Permutation_sym. apply X. split; [auto|apply Permutation_sym, H2]. }
      eapply (sp_bind G vp); [eapply stable_perm; exact RI1|apply US; [apply RI1|exact T1|exact T2]| |].
      + intros p Sp H. apply EQ in H; [tauto|exact (sat_eqs _ _ _ _ _ Sp)].
      + intros ux L2 h2 P2 W2. cbv beta in W2. clear ux.
        assert (RI2 : RI L2 h2 fs1 rho1' fs2' rho2 ((l, t2) :: acc)).
        { eapply ri_post; [|exact P2]. apply ri_sym. eapply ri_move; [apply ri_sym; exact RI1|..]; eauto. }
        eapply (sp_conv G vp); [exact (IH _ _ _ _ _ _ _ RI2)|..].
        * intros p Ep. apply (po_eqs _ _ _ _ _ _ _ P2) in Ep as [Ep DE]. rewrite (EQ p Ep). tauto.
        * intros [fs'' rho''] L3 h3 P3 [(R1 & R2 & R3 & R4 & R5) W3]. cbn [fst snd] in *.
          split; [|exact (WW_trans _ _ _ _ _ _ _ W1 (WW_trans _ _ _ _ _ _ _ W2 W3))].
          split; [exact R1|split; [exact R2|split; [exact R3|split; [exact R4|]]]].
          intros p Ep. cbn [fst snd]. rewrite (R5 p Ep).
          apply (po_eqs _ _ _ _ _ _ _ P3) in Ep as [Ep _]. apply (po_eqs _ _ _ _ _ _ _ P2) in Ep as [Ep DE].
          cbn. rewrite <- DE. rewrite Permutation_middle. apply Permutation_app_head.
          transitivity (denf p fs1 ++ (l, den p t1) :: dw p rho1'); [apply Permutation_middle|].
          apply Permutation_app_head. exact (D1 p Ep). }
  cbn [unifyRecAcc]. destruct fs1 as [|[lab1 t1] fs1'], fs2 as [|[lab2 t2] fs2'].
  - eapply (sp_bind G vp); [eapply stable_perm; exact RI0| |..].
    + apply (unifyRho_sp G vp L h rho1 rho2); [apply RI0|apply RI0|apply RI0|].
      intros l. rewrite (ri_l1 _ _ _ _ _ _ _ RI0 l), (ri_l2 _ _ _ _ _ _ _ RI0 l). reflexivity.
    + intros p Sp H. pose proof (sat_eqs _ _ _ _ _ Sp) as Ep.
      pose proof (ri_inv _ _ _ _ _ _ _ RI0) as [W _].
      apply sorted_perm; [|..].
      * apply (rows_ok G L h p W Ep), RI0.
      * apply (rows_ok G L h p W Ep), RI0.
      * exact H.
    + intros ux L1 h1 P1 W1. cbv beta in W1. clear ux. pose proof (ri_post _ _ _ _ _ _ _ _ _ _ RI0 P1) as [A1 A2 A3 A4 A5 A6 A7 A8 A9 A10].
      apply sp_ret; [exact A1| |].
      * intros p Ep. apply (po_eqs _ _ _ _ _ _ _ P1) in Ep as [_ ->]. reflexivity.
      * split; [|exact W1]. rewrite app_nil_r in *. split; [|split; [|split; [|split]]]; cbn [fst snd]; auto.
        -- intros l t J. apply in_rev in J. exact (A4 _ _ J).
        -- intros p Ep. cbn. apply Permutation_app_tail. unfold denf. rewrite map_rev. symmetry. apply Permutation_rev.
  - apply (C2 lab2 t2 fs2' eq_refl). intros y [].
  - apply (C1 lab1 t1 fs1' eq_refl). intros y [].
  - destruct (lt_lab lab1 lab2) eqn:E1; [|destruct (lt_lab lab2 lab1) eqn:E2].
    + apply (C1 lab1 t1 fs1' eq_refl). intros y [<-|J]; [exact E1|].
      apply (lt_trans _ lab2); [exact E1|]. pose proof (ri_s2 _ _ _ _ _ _ _ RI0) as X.
      apply sorted_app in X as (_ & X & _). exact (sorted_lt _ _ _ X _ J).
    + apply (C2 lab2 t2 fs2' eq_refl). intros y [<-|J]; [exact E2|].
      apply (lt_trans _ lab1); [exact E2|]. pose proof (ri_s1 _ _ _ _ _ _ _ RI0) as X.
      apply sorted_app in X as (_ & X & _). exact (sorted_lt _ _ _ X _ J).
    + pose proof (lt_total _ _ E1 E2) as <-. clear C1 C2 E1 E2.
      assert (T1 : wf_ty G h t1) by (apply (ri_wf1 _ _ _ _ _ _ _ RI0 lab1); left; reflexivity).
      assert (T2 : wf_ty G h t2) by (apply (ri_wf2 _ _ _ _ _ _ _ RI0 lab1); left; reflexivity).
      assert (EQ : forall p, eqs L h p -> (Permutation (denf p ((lab1, t1) :: fs1') ++ dw p rho1) (denf p ((lab1, t2) :: fs2') ++ dw p rho2) <->
         den p t1 = den p t2 /\ Permutation (denf p fs1' ++ dw p rho1) (denf p fs2' ++ dw p rho2))).
      { intros p Ep. split.
        - intros H. apply (perm_same lab1); [exact (ri_nodup _ _ _ _ _ _ _ p RI0 Ep)|exact H].
        - intros [DE H]. cbn. rewrite DE. apply perm_skip, H. }
      eapply (sp_bind G vp); [eapply stable_perm; exact RI0|apply US; [apply RI0|exact T1|exact T2]| |].
      * intros p Sp H. apply EQ in H; [tauto|exact (sat_eqs _ _ _ _ _ Sp)].
      * intros ux L2 h2 P2 W2. cbv beta in W2. clear ux.
        assert (RI2 : RI L2 h2 fs1' rho1 fs2' rho2 ((lab1, t1) :: acc)).
        { eapply ri_post; [|exact P2]. eapply ri_both; exact RI0. }
        eapply (sp_conv G vp); [exact (IH _ _ _ _ _ _ _ RI2)|..].
        -- intros p Ep. apply (po_eqs _ _ _ _ _ _ _ P2) in Ep as [Ep DE]. rewrite (EQ p Ep). tauto.
        -- intros [fs'' rho''] L3 h3 P3 [(R1 & R2 & R3 & R4 & R5) W3]. cbn [fst snd] in *.
          split; [|exact (WW_trans _ _ _ _ _ _ _ W2 W3)].
          split; [exact R1|split; [exact R2|split; [exact R3|split; [exact R4|]]]].
          intros p Ep. cbn [fst snd]. rewrite (R5 p Ep). cbn. apply Permutation_middle.
Qed.

Lemma unifyRec_sp un n L h r r' : Uspec un -> inv G L h -> (r < length (rs h))%nat -> (r' < length (rs h))%nat ->
  SP L h (unifyRec n un vp r r') (fun _ L' h' => WW G L h L' h') (fun p => dr p r = dr p r').
Proof.
  intros US I B B'. pose proof (proj1 I) as W. unfold unifyRec.
  destruct (nth_ex _ _ B) as [c E], (nth_ex _ _ B') as [c' E'].
  apply (sp_get_rec G vp _ _ _ c); [exact E|]. apply (sp_get_rec G vp _ _ _ c'); [exact E'|].
  assert (RI0 : RI L h (fields c) (rho c) (fields c') (rho c') []).
  { constructor; cbn; auto.
    - intros l t J. exact (wf_fields _ _ _ W _ _ _ _ E J).
    - intros l t J. exact (wf_fields _ _ _ W _ _ _ _ E' J).
    - intros l t [].
    - exact (wf_rho _ _ _ W _ _ E).
    - exact (wf_rho _ _ _ W _ _ E').
    - exact (wf_sorted _ _ _ W _ _ E).
    - exact (wf_sorted _ _ _ W _ _ E').
    - exact (wf_taken _ _ _ W _ _ E).
    - exact (wf_taken _ _ _ W _ _ E'). }
  eapply (sp_conv G vp _ _ _ (fun _ L' h' => WW G L h L' h') _ (fun p => Permutation (denf p (fields c) ++ dw p (rho c)) (denf p (fields c') ++ dw p (rho c')))).
  2:{ intros p (_ & Ep & _). pose proof (Ep _ _ E) as [S1 P1]. pose proof (Ep _ _ E') as [S2 P2]. split.
      - intros H. apply sorted_perm; [exact S1|exact S2|]. rewrite <- P1, <- P2. exact H.
      - intros H. rewrite P1, P2, H. reflexivity. }
  2:{ auto. }
  eapply (sp_bind G vp); [eapply stable_perm; exact RI0|exact (unifyRecAcc_sp un US n L h _ _ _ _ _ RI0)| |].
  { auto. }
  intros [fs'' rho''] L1 h1 P1 [(R1 & R2 & R3 & R4 & R5) W1]. cbn [fst snd] in *.
  pose proof (po_inv _ _ _ _ _ _ _ P1) as I1. pose proof (po_grows _ _ _ _ _ _ _ P1) as (_ & GR & _).
  assert (D : forall p, eqs L1 h1 p -> rec_sat p r (mkRec fs'' rho'') /\ rec_sat p r' (mkRec fs'' rho'')).
  { intros p Ep. pose proof (R5 p Ep) as R. cbn in R. apply (po_eqs _ _ _ _ _ _ _ P1) in Ep as [(_ & Ep & _) H].
    pose proof (Ep _ _ E) as [S1 Q1]. pose proof (Ep _ _ E') as [S2 Q2]. split.
    - split; [exact S1|]. cbn. rewrite R. exact Q1.
    - split; [exact S2|]. cbn. rewrite R, H. exact Q2. }
  assert (C1 : Comp G L1 h1 (upd_rec h1 r (mkRec fs'' rho''))).
  { apply rec_step; cbn; auto; [lia|]. intros p Ep. apply D, Ep. }
  assert (C2 : Comp G L1 (upd_rec h1 r (mkRec fs'' rho'')) (upd_rec (upd_rec h1 r (mkRec fs'' rho'')) r' (mkRec fs'' rho''))).
  { apply rec_step; cbn; rewrite ?set_nth_len; auto; [exact (proj1 C1)|lia| |].
    - intros l t J. apply (comp_wf_ty _ _ _ _ _ C1). exact (R1 l t J).
    - intros p Ep. apply D. apply C1, Ep. }
  split.
  - intros a h' H. rewrite bind_assoc in H. bok H u h2 X. apply setRt_both in X as [-> _].
    apply setRt_both in H as [-> _]. exists L1.
    split; [|exact (WW_trans _ _ _ _ _ _ _ W1 (WW_comp _ _ _ _ (comp_trans _ _ _ _ _ C1 C2)))].
    eapply (post_comp_l G vp); [exact (comp_trans _ _ _ _ _ C1 C2)| |].
    + apply post_refl; [exact (proj1 C2)|]. intros p Ep. apply C2, C1 in Ep.
      exact (proj2 (po_eqs _ _ _ _ _ _ _ P1 p Ep)).
    + reflexivity.
  - intros x H. exfalso. rewrite bind_assoc in H.
    assert (NF : forall r0 fs w h0 y, (setRtFields r0 fs;; setRtRho r0 w) h0 <> Fail y).
    { intros r0 fs w h0 y Z. apply bind_fail in Z as [Z|(u & h2 & _ & Z)];
        unfold setRtFields, setRtRho in Z;
        (apply bind_fail in Z as [Z|(c0 & h3 & _ & Z)]; [exact (get_rec_nf _ _ _ Z)|discriminate]). }
    apply bind_fail in H as [H|(u & h2 & _ & H)]; exact (NF _ _ _ _ _ H).
Qed.

Lemma app2_sp un : Uspec un -> forall ts1 ts2 L h, inv G L h -> Forall (wf_ty G h) ts1 -> Forall (wf_ty G h) ts2 ->
  SP L h (app2 un ts1 ts2) (fun _ L' h' => WW G L h L' h') (fun p => map (den p) ts1 = map (den p) ts2).
Proof.
  intros US. induction ts1 as [|t1 ts1 IH]; intros [|t2 ts2] L h I W1 W2; cbn [app2]; try apply sp_fatal.
  - apply sp_ret; auto using WW_refl.
  - inversion W1 as [|? ? X1 Y1]; inversion W2 as [|? ? X2 Y2]; subst.
    eapply (sp_bind G vp).
    + intros p p' AG H. rewrite Forall_forall in W1, W2.
      rewrite <- (map_ext_in (den p) (den p') (t1 :: ts1)) by (intros t J; exact (den_agree G h _ _ _ AG (W1 t J))).
      rewrite <- (map_ext_in (den p) (den p') (t2 :: ts2)) by (intros t J; exact (den_agree G h _ _ _ AG (W2 t J))).
      exact H.
    + apply (US L h t1 t2 I X1 X2).
    + intros p _ H. cbn in H. congruence.
    + intros ux L1 h1 P1 WX. cbv beta in WX. clear ux. pose proof (po_grows _ _ _ _ _ _ _ P1) as GR.
      eapply (sp_conv G vp); [apply (IH ts2 L1 h1)|..].
      * apply P1.
      * eapply Forall_impl; [|exact Y1]. intros; eapply wf_ty_grows; eauto.
      * eapply Forall_impl; [|exact Y2]. intros; eapply wf_ty_grows; eauto.
      * intros p Ep. apply (po_eqs _ _ _ _ _ _ _ P1) in Ep as [_ D]. cbn. split; [congruence|]. intros X; injection X; auto.
      * intros ux L2 h3 _ WY. cbv beta in WY. exact (WW_trans _ _ _ _ _ _ _ WX WY).
Qed.

Theorem unify_sp n : Uspec (unify n G vp).
Proof.
  induction n as [|n IH]; intros L h t1 t2 I T1 T2; [split; discriminate|]. cbn [unify].
  apply (sp_norm G vp); [exact I|exact T1|]. intros u1 h1 C1 W1 N1 _ D1. pose proof (proj1 C1) as I1.
  pose proof (comp_wf_ty _ _ _ _ _ C1 T2) as T2'.
  apply (sp_norm G vp); [exact I1|exact T2'|]. intros u2 h2 C2 W2 N2 _ D2. pose proof (proj1 C2) as I2.
  apply (comp_wf_ty _ _ _ _ _ C2) in W1. apply (nf_comp _ _ _ _ _ C2) in N1.
  apply (sp_conv G vp L h2 _ (fun _ L' h' => WW G L h2 L' h') _ (fun p => den p u1 = den p u2)).
  2:{ intros p Ep. rewrite (D2 p Ep). apply C2 in Ep. rewrite (D1 p Ep). reflexivity. }
  2:{ intros ux L' h' _ WX. cbv beta in WX. exact (WW_trans _ _ _ _ _ _ _ (WW_comp _ _ _ _ (comp_trans _ _ _ _ _ C1 C2)) WX). }
  clear C1 C2 D1 D2 T1 T2 T2' I I1 h h1 t1 t2.
  assert (LK : forall v t, wf_ty G h2 t -> nf h2 t -> nf h2 (VARt v) -> t <> VARt v ->
    (forall c, nth_error (vs h2) v = Some c -> tvKind c = NoLink) ->
    SP L h2 (linkVarToType n G vp v t) (fun _ L' h' => WW G L h2 L' h') (fun p => dv p v = den p t)).
  { intros v t T N (c & E & _) NV K. eapply (linkVarToType_sp G vp); eauto. }
  assert (LK' : forall v t, wf_ty G h2 t -> nf h2 t -> nf h2 (VARt v) -> t <> VARt v ->
    (forall c, nth_error (vs h2) v = Some c -> tvKind c = NoLink) ->
    SP L h2 (linkVarToType n G vp v t) (fun _ L' h' => WW G L h2 L' h') (fun p => den p t = dv p v)).
  { intros v t T N NV X K. eapply (sp_conv G vp); [apply LK; eauto| |auto].
    intros p _. split; intros Y; symmetry; exact Y. }
  assert (VX : forall v t, wf_ty G h2 t -> nf h2 t -> nf h2 (VARt v) -> (forall x, t <> VARt x) ->
    SP L h2 (do c <- get_tv v; if isExplicit c then fail UnifyOther else linkVarToType n G vp v t)
      (fun _ L' h' => WW G L h2 L' h') (fun p => dv p v = den p t)).
  { intros v t T N NV X. pose proof NV as (c & E & K). apply (sp_get_tv G vp _ _ _ c); [exact E|].
    unfold isExplicit. destruct K as [K|K]; rewrite K.
    - apply LK; auto. intros c' E'. rewrite E in E'. injection E' as <-. exact K.
    - apply sp_fail. intros p Ep D. rewrite (explicit_lev L h2 v c p Ep E K) in D.
      destruct t; cbn in D; try discriminate. exact (X _ eq_refl). }
  assert (VX' : forall v t, wf_ty G h2 t -> nf h2 t -> nf h2 (VARt v) -> (forall x, t <> VARt x) ->
    SP L h2 (do c <- get_tv v; if isExplicit c then fail UnifyOther else linkVarToType n G vp v t)
      (fun _ L' h' => WW G L h2 L' h') (fun p => den p t = dv p v)).
  { intros v t T N NV X. eapply (sp_conv G vp); [apply VX; eauto| |auto].
    intros p _. split; intros Y; symmetry; exact Y. }
  destruct u1 as [v1|a1 b1|ts1 tn1|r1], u2 as [v2|a2 b2|ts2 tn2|r2];
    try (apply VX; auto; discriminate); try (apply VX'; auto; discriminate);
    try (apply sp_fail; intros p _ X; discriminate X).
  - (* two variables *)
    destruct (Nat.eqb v1 v2) eqn:EV.
    { apply Nat.eqb_eq in EV. subst v2. apply sp_ret; auto using WW_refl. }
    apply Nat.eqb_neq in EV.
    pose proof N1 as (c1 & E1 & K1). pose proof N2 as (c2 & E2 & K2).
    apply (sp_get_tv G vp _ _ _ c1); [exact E1|]. apply (sp_get_tv G vp _ _ _ c2); [exact E2|].
    assert (H1 : tvKind c1 = NoLink -> SP L h2 (linkVarToType n G vp v1 (VARt v2)) (fun _ L' h' => WW G L h2 L' h')
       (fun p => den p (VARt v1) = den p (VARt v2))).
    { intros K. apply LK; auto; [congruence|]. intros c E. rewrite E1 in E. injection E as <-. exact K. }
    assert (H2 : tvKind c2 = NoLink -> SP L h2 (linkVarToType n G vp v2 (VARt v1)) (fun _ L' h' => WW G L h2 L' h')
       (fun p => den p (VARt v1) = den p (VARt v2))).
    { intros K. apply LK'; auto; [congruence|]. intros c E. rewrite E2 in E. injection E as <-. exact K. }
    destruct K1 as [K1|K1], K2 as [K2|K2]; rewrite K1, K2.
    + destruct (tvLevel c1 <=? tvLevel c2); [exact (H1 K1)|exact (H2 K2)].
    + exact (H1 K1).
    + exact (H2 K2).
    + apply sp_fail. intros p Ep X. cbn in X. rewrite (explicit_lev L h2 v1 c1 p Ep E1 K1) in X.
      rewrite (explicit_lev L h2 v2 c2 p Ep E2 K2) in X. congruence.
  - (* two function types *)
    destruct W1 as [Wa1 Wb1], W2 as [Wa2 Wb2].
    eapply (sp_bind G vp).
    + intros p p' AG H.
      rewrite <- (den_agree G h2 p p' (ARROWt a1 b1) AG), <- (den_agree G h2 p p' (ARROWt a2 b2) AG);
        [exact H|split; assumption..].
    + apply (IH L h2 a1 a2 I2 Wa1 Wa2).
    + intros p _ H. cbn in H. congruence.
    + intros ux L1 h1 P1 WX. cbv beta in WX. clear ux. pose proof (po_grows _ _ _ _ _ _ _ P1) as GR.
      eapply (sp_conv G vp); [apply (IH L1 h1 b1 b2)|..].
      * apply P1.
      * exact (wf_ty_grows _ _ _ _ GR Wb1).
      * exact (wf_ty_grows _ _ _ _ GR Wb2).
      * intros p Ep. apply (po_eqs _ _ _ _ _ _ _ P1) in Ep as [_ D]. cbn. split; [congruence|]. intros X; injection X; auto.
      * intros ux L2 h3 _ WY. cbv beta in WY. exact (WW_trans _ _ _ _ _ _ _ WX WY).
  - (* two type constructors *)
    apply wf_con in W1 as [_ W1]. apply wf_con in W2 as [_ W2].
    destruct (Nat.eqb (tnArity (G tn1)) (tnArity (G tn2))) eqn:EA; cbn [negb].
    + destruct (Nat.eqb tn1 tn2) eqn:ET.
      * apply Nat.eqb_eq in ET. subst tn2.
        eapply (sp_conv G vp); [apply (app2_sp _ IH ts1 ts2 L h2 I2 W1 W2)|..]; [|auto].
        intros p _. cbn. split; [congruence|]. intros X; injection X; auto.
      * apply Nat.eqb_neq in ET. apply sp_fail. intros p _ X. cbn in X. congruence.
    + apply Nat.eqb_neq in EA. apply sp_fail. intros p _ X. cbn in X. injection X as _ X. congruence.
  - (* two records *)
    destruct (Nat.eqb r1 r2) eqn:ER.
    + apply Nat.eqb_eq in ER. subst r2. apply sp_ret; auto using WW_refl.
    + eapply (sp_conv G vp); [apply (unifyRec_sp _ n L h2 r1 r2 IH I2 W1 W2)|..]; [|auto].
      intros p _. cbn. split; [congruence|]. intros X; injection X; auto.
Qed.
End P.
