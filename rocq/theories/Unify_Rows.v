(** * Rows: joining two rows, and moving a field out of a row *)

From Coq Require Import ZArith List Bool Permutation Sorted Lia Arith.
From Verif Require Import Unify_Model Unify_Spec Unify_Base Unify_Sol Unify_Norm Unify_Meas Unify_Free Unify_Attr Unify_Link.
Import ListNotations.
Open Scope Z_scope.

Section R.
Variables (G : nat -> tninfo) (vp : bool).

(** ** What every row is like *)

Lemma rows_ok L h p : wf G L h -> eqs L h p -> forall w, (w < length (ws h))%nat ->
  sorted (dw p w) /\ forall l, In l (labels (dw p w)) -> ~ In l (L w).
Proof.
  intros W E w. pose proof (acyclic _ _ _ _ W E (AW w)) as A.
  remember (AW w) as x eqn:X. revert w X. induction A as [x _ IH]. intros w -> B.
  destruct (nth_ex _ _ B) as [k Ek]. pose proof E as (_ & _ & E3). specialize (E3 _ _ Ek).
  assert (IHw : forall w', In (AW w') (succ h (AW w)) -> (w' < length (ws h))%nat ->
    sorted (dw p w') /\ forall l, In l (labels (dw p w')) -> ~ In l (L w')).
  { intros w' J. apply (IH (AW w')); [exact J|reflexivity]. }
  cbn in IHw. rewrite Ek in IHw.
  destruct k as [|e i lv|w'|l t w']; cbn in E3.
  - rewrite E3. split; [apply sorted_nil|intros l []].
  - exact E3.
  - destruct (wf_LINKrow _ _ _ W _ _ Ek) as [B' S]. destruct (IHw w') as [X Y]; [left; reflexivity|exact B'|].
    rewrite E3. split; [exact X|]. intros l J K. apply (Y l J). apply S, K.
  - destruct (wf_FIELDrow _ _ _ W _ _ _ _ Ek) as (B' & _ & NI & S).
    destruct (IHw w') as [X Y]; [left; reflexivity|exact B'|]. destruct E3 as [S1 P1].
    split; [exact S1|]. intros l0 J K. apply labels_perm in P1.
    apply (Permutation_in _ (Permutation_sym P1)) in J. cbn in J. destruct J as [<-|J]; [exact (NI K)|].
    apply (Y l0 J). apply S. right. exact K.
Qed.

(** ** unifyRho *)

Lemma row_link L h w w' e i lv : inv G L h -> nth_error (ws h) w = Some (VARrow e i lv) -> w <> w' ->
  same_set (L w) (L w') ->
  (nth_error (ws h) w' = Some NILrow \/ exists e' i' lv', nth_error (ws h) w' = Some (VARrow e' i' lv') /\
     forall t, attr_ok G vp e' i' lv' t -> attr_ok G vp e i lv t) ->
  Post G vp L h L (upd_row h w (LINKrow w')) (fun p => dw p w = dw p w').
Proof.
  intros I E NE SS T. pose proof (proj1 I) as W. pose proof (nth_lt _ _ _ E) as B.
  assert (B' : (w' < length (ws h))%nat).
  { destruct T as [T|(? & ? & ? & T & _)]; exact (nth_lt _ _ _ T). }
  assert (NL : forall y, nth_error (ws h) w' <> Some (LINKrow y)).
  { intros y X. destruct T as [T|(? & ? & ? & T & _)]; congruence. }
  assert (EQF : forall p, eqs L h p -> dw p w = dw p w' -> eqs L (upd_row h w (LINKrow w')) p).
  { intros p (A1 & A2 & A3) D. split; [exact A1|split; [exact A2|]]. intros u k Eu. cbn in Eu.
    apply set_nth_inv in Eu as [(-> & -> & _)|[_ Eu]]; [exact D|auto]. }
  assert (EQB : forall p, eqs L (upd_row h w (LINKrow w')) p -> eqs L h p /\ dw p w = dw p w').
  { intros p (A1 & A2 & A3).
    assert (D : dw p w = dw p w').
    { apply (A3 w (LINKrow w')). cbn. apply set_nth_same, B. }
    split; [|exact D]. split; [exact A1|split; [exact A2|]]. intros u k Eu. destruct (Nat.eq_dec u w) as [->|N].
    - rewrite E in Eu. injection Eu as <-. cbn. rewrite D.
      destruct T as [T|(e' & i' & lv' & T & _)].
      + assert (X : dw p w' = []) by (apply (A3 w' NILrow); cbn; rewrite set_nth_other by auto; exact T).
        rewrite X. split; [apply sorted_nil|intros l []].
      + destruct (A3 w' (VARrow e' i' lv')) as [X Y]; [cbn; rewrite set_nth_other by auto; exact T|].
        split; [exact X|]. intros l J K. apply (Y l J), SS, K.
    - apply A3. cbn. rewrite set_nth_other by auto. exact Eu. }
  assert (WF : wf G L (upd_row h w (LINKrow w'))).
  { assert (WT : forall t, wf_ty G h t -> wf_ty G (upd_row h w (LINKrow w')) t)
      by (intros t; apply wf_ty_len; reflexivity).
    pose proof (wf_wacc _ _ _ W) as WA. destruct W. constructor; cbn; rewrite ?set_nth_len; eauto.
    - intros w0 w1 E0. apply set_nth_inv in E0 as [(-> & X & _)|[_ E0]]; [|eauto].
      injection X as ->. split; [exact B'|]. intros l. symmetry. apply SS.
    - intros w0 l t w1 E0. apply set_nth_inv in E0 as [(_ & X & _)|[_ E0]]; [discriminate|].
      destruct (wf_FIELDrow _ _ _ _ E0) as (? & ? & ? & ?). auto.
    - assert (AW' : Acc (wlink (upd_row h w (LINKrow w'))) w').
      { constructor. intros y Y. unfold wlink in Y. cbn in Y. rewrite set_nth_other in Y by auto.
        destruct (NL _ Y). }
      intros x. induction (WA x) as [x _ IH]. constructor. intros y Y. unfold wlink in Y. cbn in Y.
      apply set_nth_inv in Y as [(_ & X & _)|[_ Y]]; [injection X as ->; exact AW'|]. apply IH. exact Y. }
  constructor.
  - split; [exact WF|]. destruct (inv_solve G L h (fun _ => unit_tree) (fun _ => []) I) as (p & P1 & P2 & P3).
    + intros. split; [apply sorted_nil|intros l []].
    + exists p. apply EQF; [exact P1|]. rewrite (P3 _ _ _ _ E). symmetry.
      destruct T as [T|(e' & i' & lv' & T & _)]; [|exact (P3 _ _ _ _ T)].
      destruct P1 as (_ & _ & P1). exact (P1 _ _ T).
  - unfold grows. cbn. rewrite set_nth_len. lia.
  - auto.
  - intros p S D. exists p. split; [apply agree_refl|]. apply sat_split in S as [Ep Ap].
    apply sat_split. split; [apply EQF; assumption|]. split; [exact (proj1 Ap)|].
    intros u e0 i0 l0 Eu. cbn in Eu. apply set_nth_inv in Eu as [(_ & X & _)|[_ Eu]]; [discriminate|].
    exact (proj2 Ap _ _ _ _ Eu).
  - exact EQB.
  - intros p S. apply sat_split in S as [Ep Ap]. pose proof (EQB p Ep) as [Ep' D].
    apply sat_split. split; [exact Ep'|]. split; [exact (proj1 Ap)|].
    intros u e0 i0 l0 Eu l t J. destruct (Nat.eq_dec u w) as [->|N].
    + rewrite E in Eu. injection Eu as <- <- <-. rewrite D in J.
      destruct T as [T|(e' & i' & lv' & T & HT)].
      * destruct Ep' as (_ & _ & Ep'). specialize (Ep' _ _ T). cbn in Ep'. rewrite Ep' in J. destruct J.
      * apply HT. eapply (proj2 Ap w'); [|exact J]. cbn. rewrite set_nth_other by auto. exact T.
    + eapply (proj2 Ap u); [|exact J]. cbn. rewrite set_nth_other by auto. exact Eu.
Qed.

Lemma mid_post L h h' Q : Mid G L vp h h' Q ->
  forall L' h'' (Q' : val -> Prop), Post G vp L h' L' h'' Q' ->
  (forall p, sat G vp L h p -> Q' p -> Q p) -> Post G vp L h L' h'' Q'.
Proof.
  intros M L' h'' Q' P F. pose proof M as [M1 M2 M3 M4 M5 M5' M6 M7 _].
  assert (GR : grows h h') by (unfold grows; rewrite M2, M3, M4; lia).
  destruct P as [P1 P2 P3 P4 P5 P6]. constructor.
  - exact P1.
  - eapply grows_trans; eauto.
  - intros w B. apply P3. rewrite M4. exact B.
  - intros p S Qp. destruct (P4 p) as (p' & A & S').
    + pose proof S as S0. apply sat_split in S as [Ep Ap]. apply sat_split. split; [apply M6, Ep|].
      apply M7; auto.
    + exact Qp.
    + exists p'. split; [exact (agree_grows _ _ _ _ GR A)|exact S'].
  - intros p E. apply P5 in E as [E Qp]. split; [apply M6, E|exact Qp].
  - intros p S. apply P6 in S. apply sat_split in S as [Ep Ap]. apply M6 in Ep. apply sat_split.
    split; [exact Ep|]. apply M7 in Ap; tauto.
Qed.

Lemma unifyRho_sp L h w1 w2 : inv G L h -> (w1 < length (ws h))%nat -> (w2 < length (ws h))%nat ->
  same_set (L w1) (L w2) ->
  SP G vp L h (unifyRho w1 w2) (fun _ L' h' => WW G L h L' h') (fun p => dw p w1 = dw p w2).
Proof.
  intros I B1 B2 SS. unfold unifyRho. destruct (Nat.eqb w1 w2) eqn:NE.
  { apply Nat.eqb_eq in NE. subst. apply sp_ret; auto using WW_refl. }
  apply Nat.eqb_neq in NE.
  destruct (nth_ex _ _ B1) as [k1 E1], (nth_ex _ _ B2) as [k2 E2].
  apply (sp_get_row _ _ _ _ _ k1); [exact E1|]. apply (sp_get_row _ _ _ _ _ k2); [exact E2|].
  destruct k1 as [|e1 i1 l1|w1'|la1 t1 w1'], k2 as [|e2 i2 l2|w2'|la2 t2 w2']; try apply sp_fatal.
  - apply sp_ret; auto using WW_refl. intros p (_ & _ & E). pose proof (E _ _ E1) as X. pose proof (E _ _ E2) as Y.
    cbn in X, Y. congruence.
  - split; [|discriminate]. intros a h' X. injection X as _ <-. exists L.
    split; [|apply WW_less; [cbn; apply set_nth_len|]; intros Lam; apply (mu_row _ _ _ _ _ _ _ _ E2); discriminate].
    assert (P : Post G vp L h L (upd_row h w2 (LINKrow w1)) (fun p => dw p w2 = dw p w1)).
    { eapply row_link; eauto. intros l. symmetry. apply SS. }
    destruct P as [P1 P2 P3 P4 P5 P6]. constructor; auto. intros p Ep. apply P5 in Ep as [A B]. auto.
  - split; [|discriminate]. intros a h' X. injection X as _ <-. exists L.
    split; [|apply WW_less; [cbn; apply set_nth_len|]; intros Lam; apply (mu_row _ _ _ _ _ _ _ _ E1); discriminate].
    eapply row_link; eauto.
  - set (lv := if l1 <? l2 then l1 else l2).
    set (h1 := upd_row h w2 (VARrow (e1 || e2) (i1 || i2) lv)).
    assert (X : ((if l1 <? l2 then setRvLevel w2 l1 else ret tt);;
      setRvEqu w2 (e1 || e2);; setRvImp w2 (i1 || i2);; set_row w1 (LINKrow w2)) h
      = set_row w1 (LINKrow w2) h1).
    { unfold h1, lv. destruct (l1 <? l2); unfold setRvLevel, setRvEqu, setRvImp, bind, get_row, set_row, ret;
        rewrite E2; cbn; repeat (rewrite set_nth_same by (rewrite ?set_nth_len; exact B2); cbn);
        unfold upd_row; rewrite ?set_nth_twice; reflexivity. }
    assert (M : Mid G L vp h h1 (fun p => Forall (fun f => attr_ok G vp e1 i1 l1 (snd f)) (dw p w2))).
    { apply (row_attr_step G L vp h w2 e2 i2 l2 _ _ _ (attr_ok G vp e1 i1 l1)); [exact I|exact E2|].
      intros t. unfold attr_ok, lv. split.
      - intros (A & C & D). split; (split; [|split]).
        + apply (lev_mono G (if l1 <? l2 then l1 else l2)); [|exact A].
          destruct (l1 <? l2) eqn:Y; rewrite ?Z.ltb_lt, ?Z.ltb_ge in Y; lia.
        + intros ->. apply C. apply orb_true_r.
        + intros ->. apply D. apply orb_true_r.
        + apply (lev_mono G (if l1 <? l2 then l1 else l2)); [|exact A].
          destruct (l1 <? l2) eqn:Y; rewrite ?Z.ltb_lt, ?Z.ltb_ge in Y; lia.
        + intros ->. apply C. reflexivity.
        + intros ->. apply D. reflexivity.
      - intros [(A & C & D) (A' & C' & D')]. split; [destruct (l1 <? l2); assumption|].
        split; intros Y; apply orb_true_iff in Y as [Y|Y]; auto. }
    split; unfold SP; rewrite X; [|discriminate]. intros a h' Y. injection Y as _ <-. exists L.
    split; [|apply WW_less; [cbn; rewrite !set_nth_len; reflexivity|]; intros Lam;
      apply (Nat.lt_le_trans _ (mu Lam L h1)); [|exact (nonew_mu Lam L _ _ (mid_nonew _ _ _ _ _ _ M))];
      apply (mu_row Lam L h1 w1 e1 i1 l1); [unfold h1; cbn; rewrite set_nth_other by auto; exact E1|discriminate]].
    apply (mid_post L h h1 _ M).
    + eapply (row_link L h1 w1 w2 e1 i1 l1).
      * exact (mid_inv _ _ _ _ _ _ M).
      * unfold h1. cbn. rewrite set_nth_other by auto. exact E1.
      * exact NE.
      * exact SS.
      * right. exists (e1 || e2), (i1 || i2), lv. split; [unfold h1; cbn; apply set_nth_same, B2|].
        intros t (A & C & D). split; [|split].
        -- apply (lev_mono G lv); [|exact A]. unfold lv.
           destruct (l1 <? l2) eqn:Y; rewrite ?Z.ltb_lt, ?Z.ltb_ge in Y; lia.
        -- intros ->. apply C. reflexivity.
        -- intros ->. apply D. reflexivity.
    + intros p S D. apply Forall_forall. intros [l t] J. cbn. rewrite <- D in J.
      apply sat_split in S as [_ S]. exact (proj2 S _ _ _ _ E1 _ _ J).
Qed.

(** ** extractLab *)

Lemma in_split_row l (m : row) : sorted m -> In l (labels m) ->
  exists d m', sorted m' /\ Permutation ((l, d) :: m') m /\ (forall x, In x m' -> In x m) /\
    ~ In l (labels m').
Proof.
  intros S J. apply labels_in in J as [d J]. apply in_split in J as (a & b & ->).
  assert (P : Permutation ((l, d) :: a ++ b) (a ++ (l, d) :: b)) by apply Permutation_middle.
  exists d, (a ++ b). pose proof (sorted_nodup _ S) as ND. apply labels_perm in P as PL.
  apply (Permutation_NoDup (Permutation_sym PL)) in ND. cbn in ND. inversion ND; subst.
  split; [|split; [exact P|split; [|assumption]]].
  - clear -S. induction a as [|x a IH]; cbn in *; [exact (proj1 (sorted_inv _ _ S))|].
    apply sorted_inv in S as [S1 S2]. apply sorted_cons; [auto|]. intros y J. apply S2.
    apply in_app_iff in J as [J|J]; apply in_app_iff; [left; exact J|right; right; exact J].
  - intros x J. apply (Permutation_in _ P). right. exact J.
Qed.

Definition extL (L : nat -> list lab) (w' : nat) (l : list lab) : nat -> list lab :=
  fun x => if Nat.eqb x w' then l else L x.

Definition ext_heap (h : heap) (w : nat) (l : lab) (e i : bool) (lv : Z) : heap :=
  mkHeap (vs h ++ [mkTv NoLink e (vp || i) false lv]) (rs h)
    (set_nth (ws h ++ [VARrow e i lv]) w (FIELDrow l (VARt (length (vs h))) (length (ws h)))).

Lemma extractLab_post L h w l e i lv : inv G L h -> nth_error (ws h) w = Some (VARrow e i lv) -> ~ In l (L w) ->
  Post G vp L h (extL L (length (ws h)) (l :: L w)) (ext_heap h w l e i lv) (fun p => In l (labels (dw p w))).
Proof.
  intros I E NI. pose proof (proj1 I) as W. pose proof (nth_lt _ _ _ E) as B.
  set (v' := length (vs h)). set (w' := length (ws h)).
  set (L' := extL L w' (l :: L w)). set (h' := ext_heap h w l e i lv).
  assert (LO : forall x, (x < w')%nat -> L' x = L x).
  { intros x X. unfold L', extL. destruct (Nat.eqb x w') eqn:Y; [apply Nat.eqb_eq in Y; lia|reflexivity]. }
  assert (LN : L' w' = l :: L w) by (unfold L', extL; rewrite Nat.eqb_refl; reflexivity).
  assert (GR : grows h h').
  { unfold grows, h', ext_heap. cbn. rewrite set_nth_len, !app_length. cbn. lia. }
  assert (BW : (w < length (ws h ++ [VARrow e i lv]))%nat) by (rewrite app_length; cbn; lia).
  (* the cells of h' *)
  assert (CV : forall u c, nth_error (vs h') u = Some c ->
     nth_error (vs h) u = Some c \/ (u = v' /\ c = mkTv NoLink e (vp || i) false lv)).
  { intros u c X. cbn in X. apply nth_snoc in X. exact X. }
  assert (CW : forall u k, nth_error (ws h') u = Some k ->
     (u <> w /\ nth_error (ws h) u = Some k) \/ (u = w' /\ k = VARrow e i lv) \/
     (u = w /\ k = FIELDrow l (VARt v') w')).
  { intros u k X. cbn in X. apply set_nth_inv in X as [(-> & -> & _)|[N X]]; [right; right; auto|].
    apply nth_snoc in X as [X|[-> ->]]; auto. }
  assert (HWw : nth_error (ws h') w = Some (FIELDrow l (VARt v') w')) by (cbn; apply set_nth_same, BW).
  assert (HWo : forall u k, u <> w -> nth_error (ws h) u = Some k -> nth_error (ws h') u = Some k).
  { intros u k N X. cbn. rewrite set_nth_other by auto. apply nth_app_some, X. }
  assert (HWn : nth_error (ws h') w' = Some (VARrow e i lv)).
  { cbn. rewrite set_nth_other by (fold w' in B; lia). rewrite nth_error_app2 by (unfold w'; lia).
    unfold w'. rewrite Nat.sub_diag. reflexivity. }
  assert (HVn : nth_error (vs h') v' = Some (mkTv NoLink e (vp || i) false lv)).
  { cbn. rewrite nth_error_app2 by (unfold v'; lia). unfold v'. rewrite Nat.sub_diag. reflexivity. }
  assert (EQF : forall p, eqs L h p -> sorted (dw p w') -> ~ In l (labels (dw p w')) ->
    (forall x, In x (labels (dw p w')) -> In x (labels (dw p w))) ->
    Permutation ((l, dv p v') :: dw p w') (dw p w) -> eqs L' h' p).
  { intros p (A1 & A2 & A3) S1 S2 S3 S4. split; [|split; [exact A2|]].
    - intros u c X. apply CV in X as [X|[-> ->]]; [auto|exact Logic.I].
    - intros u k X. apply CW in X as [[N X]|[[-> ->]|[-> ->]]].
      + specialize (A3 _ _ X). destruct k; cbn in *; auto. rewrite LO by exact (nth_lt _ _ _ X). exact A3.
      + cbn. split; [exact S1|]. intros x J. rewrite LN. intros [<-|K]; [exact (S2 J)|].
        destruct (A3 _ _ E) as [_ A]. exact (A x (S3 x J) K).
      + cbn. split; [exact (proj1 (A3 _ _ E))|exact S4]. }
  assert (EQB : forall p, eqs L' h' p -> eqs L h p /\ Permutation ((l, dv p v') :: dw p w') (dw p w)).
  { intros p (A1 & A2 & A3). pose proof (A3 _ _ HWw) as [S P]. cbn in P. split; [|exact P].
    split; [|split; [exact A2|]].
    - intros u c X. apply A1. cbn. apply nth_app_some, X.
    - intros u k X. destruct (Nat.eq_dec u w) as [->|N].
      + rewrite E in X. injection X as <-. cbn. split; [exact S|]. intros x J K.
        apply (Permutation_in _ (Permutation_sym (labels_perm _ _ P))) in J. cbn in J.
        destruct J as [<-|J]; [exact (NI K)|]. pose proof (A3 _ _ HWn) as [_ Y]. apply (Y x J).
        rewrite LN. right. exact K.
      + pose proof (A3 _ _ (HWo _ _ N X)) as Y. destruct k; cbn in *; auto.
        rewrite LO in Y by exact (nth_lt _ _ _ X). exact Y. }
  assert (WF : wf G L' h').
  { assert (WT : forall t, wf_ty G h t -> wf_ty G h' t) by (intros t; apply wf_ty_grows, GR).
    assert (GW : forall x, (x < length (ws h))%nat -> (x < length (ws h'))%nat).
    { intros x X. destruct GR as (_ & _ & GR). lia. }
    pose proof (wf_vacc _ _ _ W) as VA. pose proof (wf_wacc _ _ _ W) as WA. constructor.
    - intros u c t X K. apply CV in X as [X|[-> ->]]; [|discriminate]. apply WT. exact (wf_link _ _ _ W _ _ _ X K).
    - intros r c l0 t X J. apply WT. exact (wf_fields _ _ _ W _ _ _ _ X J).
    - exact (wf_sorted _ _ _ W).
    - intros r c X. apply GW. exact (wf_rho _ _ _ W _ _ X).
    - intros r c X. rewrite LO by exact (wf_rho _ _ _ W _ _ X). exact (wf_taken _ _ _ W _ _ X).
    - intros u u' X. apply CW in X as [[N X]|[[_ Y]|[_ Y]]]; try discriminate.
      destruct (wf_LINKrow _ _ _ W _ _ X) as [A S]. split; [auto|].
      rewrite (LO u') by exact A. rewrite (LO u) by exact (nth_lt _ _ _ X). exact S.
    - intros u l0 t u' X. apply CW in X as [[N X]|[[_ Y]|[-> Y]]]; try discriminate.
      + destruct (wf_FIELDrow _ _ _ W _ _ _ _ X) as (A & T & N0 & S).
        rewrite (LO u') by exact A. rewrite (LO u) by exact (nth_lt _ _ _ X). auto.
      + injection Y as -> -> ->. split; [exact (nth_lt _ _ _ HWn)|]. split; [exact (nth_lt _ _ _ HVn)|].
        rewrite LN. rewrite (LO w) by exact B. split; [exact NI|]. intros x. reflexivity.
    - intros x. induction (VA x) as [x _ IH]. constructor. intros y [c [X K]]. apply IH.
      apply CV in X as [X|[_ ->]]; [|discriminate]. exists c. auto.
    - intros x. induction (WA x) as [x _ IH]. constructor. intros y X. apply IH. unfold wlink in X.
      apply CW in X as [[N X]|[[_ Y]|[_ Y]]]; try discriminate. exact X. }
  (* extending a valuation to the new cells *)
  assert (EXT : forall p, eqs L h p -> In l (labels (dw p w)) -> exists p' , agree h p p' /\ eqs L' h' p' /\
     In (l, dv p' v') (dw p w) /\ forall x, In x (dw p' w') -> In x (dw p w)).
  { intros p Ep J. destruct (rows_ok L h p W Ep w B) as [S1 _].
    destruct (in_split_row l _ S1 J) as (d & m & S2 & P2 & I2 & N2).
    set (p' := mkVal (fun u => if Nat.eqb u v' then d else dv p u) (dr p) (fun u => if Nat.eqb u w' then m else dw p u)).
    assert (AG : agree h p p').
    { split; [|split].
      - intros u U. cbn. destruct (Nat.eqb u v') eqn:X; [apply Nat.eqb_eq in X; unfold v' in X; lia|reflexivity].
      - reflexivity.
      - intros u U. cbn. destruct (Nat.eqb u w') eqn:X; [apply Nat.eqb_eq in X; unfold w' in X; lia|reflexivity]. }
    assert (D1 : dv p' v' = d) by (cbn; rewrite Nat.eqb_refl; reflexivity).
    assert (D2 : dw p' w' = m) by (cbn; rewrite Nat.eqb_refl; reflexivity).
    assert (D3 : dw p' w = dw p w) by (symmetry; apply AG, B).
    exists p'. split; [exact AG|]. split; [|split].
    - apply EQF; [exact (eqs_agree G L h p p' W AG Ep)|rewrite D2; exact S2|rewrite D2; exact N2| |].
      + rewrite D2, D3. intros x X. apply labels_in in X as [y X]. apply I2 in X. exact (in_labels _ _ _ X).
      + rewrite D1, D2, D3. exact P2.
    - rewrite D1. apply (Permutation_in _ P2). left. reflexivity.
    - rewrite D2. exact I2. }
  constructor.
  - split; [exact WF|].
    destruct (inv_solve G L h (fun _ => unit_tree) (fun u => if Nat.eqb u w then [(l, unit_tree)] else []) I) as (p & P1 & _ & P3).
    { intros u e0 i0 l0 X. destruct (Nat.eqb u w) eqn:Y.
      - apply Nat.eqb_eq in Y. subst u. split; [apply sorted_one|]. intros x [<-|[]]. exact NI.
      - split; [apply sorted_nil|intros x []]. }
    destruct (EXT p P1) as (p' & _ & X & _); [|eauto].
    rewrite (P3 _ _ _ _ E), Nat.eqb_refl. left. reflexivity.
  - exact GR.
  - exact LO.
  - intros p S J. apply sat_split in S as [Ep Ap]. destruct (EXT p Ep J) as (p' & AG & Ep' & X1 & X2).
    exists p'. split; [exact AG|]. apply sat_split. split; [exact Ep'|].
    pose proof (ats_agree G vp h p p' AG Ap) as [Y1 Y2]. pose proof (proj2 Ap _ _ _ _ E) as Y3. split.
    + intros u c X K. apply CV in X as [X|[-> ->]]; [auto|]. specialize (Y3 _ _ X1).
      unfold tv_ok. cbn. split; [|discriminate]. destruct Y3 as (A & C & D). split; [exact A|]. split; [exact C|].
      intros Z1 ->. apply D; [exact Z1|reflexivity].
    + intros u e0 i0 l0 X. apply CW in X as [[N X]|[[-> Y]|[_ Y]]]; [eauto| |discriminate].
      injection Y as -> -> ->. intros lx tx J0. apply X2 in J0. exact (Y3 _ _ J0).
  - intros p Ep. apply EQB in Ep as [Ep P]. split; [exact Ep|].
    apply (Permutation_in _ (labels_perm _ _ P)). left. reflexivity.
  - intros p S. apply sat_split in S as [Ep Ap]. pose proof (EQB p Ep) as [Ep' P]. apply sat_split.
    split; [exact Ep'|]. split.
    + intros u c X K. apply (proj1 Ap); [|exact K]. cbn. apply nth_app_some, X.
    + intros u e0 i0 l0 X lx tx J. destruct (Nat.eq_dec u w) as [->|N].
      * rewrite E in X. injection X as <- <- <-. apply (Permutation_in _ (Permutation_sym P)) in J.
        destruct J as [J|J].
        -- injection J as <- <-. destruct (proj1 Ap _ _ HVn eq_refl) as [(A & C & D) _]. cbn in *.
           split; [exact A|]. split; [exact C|]. intros -> VP. apply D; [apply orb_true_r|exact VP].
        -- exact (proj2 Ap _ _ _ _ HWn _ _ J).
      * exact (proj2 Ap _ _ _ _ (HWo _ _ N X) _ _ J).
Qed.

Lemma ext_ww L h w l e i lv : nth_error (ws h) w = Some (VARrow e i lv) -> ~ In l (L w) ->
  forall Lam, In l Lam -> Lb Lam L h ->
  Lb Lam (extL L (length (ws h)) (l :: L w)) (ext_heap h w l e i lv) /\
  (mu Lam (extL L (length (ws h)) (l :: L w)) (ext_heap h w l e i lv) < mu Lam L h)%nat.
Proof.
  intros E NI Lam IL LB. pose proof (nth_lt _ _ _ E) as B.
  set (w' := length (ws h)). set (L' := extL L w' (l :: L w)). set (h' := ext_heap h w l e i lv).
  assert (LO : forall x, (x < w')%nat -> L' x = L x).
  { intros x X. unfold L', extL. destruct (Nat.eqb x w') eqn:Y; [apply Nat.eqb_eq in Y; lia|reflexivity]. }
  assert (LN : L' w' = l :: L w) by (unfold L', extL; rewrite Nat.eqb_refl; reflexivity).
  assert (EW : length (ws h') = S w') by (unfold h', ext_heap, w'; cbn; rewrite set_nth_len, app_length; cbn; lia).
  assert (EV : length (vs h') = S (length (vs h))) by (unfold h', ext_heap; cbn; rewrite app_length; cbn; lia).
  split.
  - intros x X. rewrite EW in X. destruct (Nat.eq_dec x w') as [->|N].
    + rewrite LN. intros y [<-|J]; [exact IL|exact (LB w B y J)].
    + rewrite LO by lia. apply LB. unfold w' in *. lia.
  - unfold mu. rewrite EW, EV. cbn [sumn].
    assert (V1 : sumn (vt h') (length (vs h)) = sumn (vt h) (length (vs h))).
    { apply sumn_ext. intros v V. unfold vt, h', ext_heap. cbn. rewrite nth_error_app1 by exact V. reflexivity. }
    assert (V2 : (vt h' (length (vs h)) <= 1)%nat).
    { unfold vt. destruct (nth_error (vs h') (length (vs h))) as [c|]; [destruct (tvKind c)|]; lia. }
    assert (X : (sumn (wt Lam L' h') w' + wt Lam L h w <= sumn (wt Lam L h) w' + wt Lam L' h' w)%nat).
    { apply sumn_at; [exact B|]. intros x X N. unfold wt. rewrite LO by exact X.
      unfold h', ext_heap. cbn. rewrite set_nth_other by auto. rewrite nth_error_app1 by exact X. lia. }
    assert (X1 : wt Lam L' h' w = O).
    { unfold wt, h', ext_heap. cbn. rewrite set_nth_same by (rewrite app_length; cbn; lia). reflexivity. }
    assert (X2 : wt Lam L h w = S (cnt Lam (L w))) by (unfold wt; rewrite E; reflexivity).
    assert (X3 : wt Lam L' h' w' = S (cnt Lam (l :: L w))).
    { unfold wt, h', ext_heap. cbn. unfold w' at 1. rewrite set_nth_other by lia.
      rewrite nth_error_app2 by lia. rewrite Nat.sub_diag. cbn. rewrite LN. reflexivity. }
    pose proof (cnt_lt Lam (L w) l IL NI). rewrite X1, X2 in X. rewrite X3, V1. unfold w' in *. lia.
Qed.

(** The new variable stands for the field's type, the new row for the rest. *)
Lemma extractLab_sp L h l w : inv G L h -> (w < length (ws h))%nat -> ~ In l (L w) ->
  SP G vp L h (extractLab vp l w)
    (fun r L' h' => wf_ty G h' (fst r) /\ (snd r < length (ws h'))%nat /\ same_set (L' (snd r)) (l :: L w) /\
       (forall Lam, In l Lam -> Lb Lam L h -> Lb Lam L' h' /\ (mu Lam L' h' < mu Lam L h)%nat) /\
       forall p, eqs L' h' p -> Permutation ((l, den p (fst r)) :: dw p (snd r)) (dw p w))
    (fun p => In l (labels (dw p w))).
Proof.
  intros I B NI. unfold extractLab. destruct (nth_ex _ _ B) as [k E].
  apply (sp_get_row _ _ _ _ _ k); [exact E|]. destruct k as [|e i lv|w1|l1 t1 w1]; try apply sp_fatal.
  - apply sp_fail. intros p (_ & _ & Ep) J. specialize (Ep _ _ E). cbn in Ep. rewrite Ep in J. destruct J.
  - split; [|discriminate]. intros a h' X. unfold bind, new_row, new_tv, set_row, ret in X. cbn in X.
    injection X as <- <-. fold (ext_heap h w l e i lv).
    exists (extL L (length (ws h)) (l :: L w)).
    pose proof (extractLab_post L h w l e i lv I E NI) as P. split; [exact P|]. cbn [fst snd].
    split; [|split; [|split; [|split]]].
    + cbn. rewrite app_length. cbn. lia.
    + cbn. rewrite set_nth_len, app_length. cbn. lia.
    + unfold extL. rewrite Nat.eqb_refl. intros x. reflexivity.
    + intros Lam IL LB. exact (ext_ww L h w l e i lv E NI Lam IL LB).
    + intros p (_ & _ & Ep). specialize (Ep w (FIELDrow l (VARt (length (vs h))) (length (ws h)))).
      destruct Ep as [_ Ep]; [|exact Ep]. cbn. apply set_nth_same. rewrite app_length. cbn. lia.
Qed.
End R.
