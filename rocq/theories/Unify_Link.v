(** * Linking a variable to a type *)

From Coq Require Import ZArith List Bool Permutation Sorted Lia Arith.
From Verif Require Import Unify_Model Unify_Spec Unify_Base Unify_Sol Unify_Norm Unify_Meas Unify_Free Unify_Attr.
Import ListNotations.
Open Scope Z_scope.

Section K.
Variables (G : nat -> tninfo) (vp : bool).

(** ** Steps that add a constraint and new cells *)

Record Post (L : nat -> list lab) (h : heap) (L' : nat -> list lab) (h' : heap) (Q : val -> Prop) : Prop := mkPost
  { po_inv : inv G L' h';
    po_grows : grows h h';
    po_L : forall w, (w < length (ws h))%nat -> L' w = L w;
    po_fwd : forall p, sat G vp L h p -> Q p -> exists p', agree h p p' /\ sat G vp L' h' p';
    po_eqs : forall p, eqs L' h' p -> eqs L h p /\ Q p;
    po_bwd : forall p, sat G vp L' h' p -> sat G vp L h p }.

Definition SP {A} (L : nat -> list lab) (h : heap) (m : U A)
    (R : A -> (nat -> list lab) -> heap -> Prop) (Q : val -> Prop) : Prop :=
  (forall a h', m h = Ok (a, h') -> exists L', Post L h L' h' Q /\ R a L' h') /\
  (forall r, m h = Fail r -> forall p, sat G vp L h p -> ~ Q p).

Definition stable (h : heap) (Q : val -> Prop) : Prop := forall p p', agree h p p' -> Q p -> Q p'.

Lemma sat_eqs L h p : sat G vp L h p -> eqs L h p.
Proof. intros S. apply sat_split in S. tauto. Qed.

Lemma sp_bind {A B} L h (m : U A) (k : A -> U B) R1 R2 (Q1 Q : val -> Prop) :
  stable h Q -> SP L h m R1 Q1 -> (forall p, sat G vp L h p -> Q p -> Q1 p) ->
  (forall a L1 h1, Post L h L1 h1 Q1 -> R1 a L1 h1 -> SP L1 h1 (k a) R2 Q) ->
  SP L h (bind m k) R2 Q.
Proof.
  intros ST [O1 F1] I S. split.
  - intros b h' E. apply bind_ok in E as (a & h1 & E1 & E2).
    destruct (O1 _ _ E1) as (L1 & P1 & X1). destruct (S _ _ _ P1 X1) as [O2 _].
    destruct (O2 _ _ E2) as (L2 & P2 & X2). exists L2. split; [|exact X2].
    pose proof (po_grows _ _ _ _ _ P1) as G1. constructor.
    + apply P2.
    + eapply grows_trans; [exact G1|apply P2].
    + intros w W. rewrite (po_L _ _ _ _ _ P2); [apply P1, W|]. destruct G1 as (_ & _ & G1). lia.
    + intros p Sp Qp. destruct (po_fwd _ _ _ _ _ P1 p Sp (I p Sp Qp)) as (p1 & A1 & S1).
      destruct (po_fwd _ _ _ _ _ P2 p1 S1 (ST _ _ A1 Qp)) as (p2 & A2 & S2).
      exists p2. split; [|exact S2]. eapply agree_trans; [exact A1|]. exact (agree_grows _ _ _ _ G1 A2).
    + intros p Ep. apply (po_eqs _ _ _ _ _ P2) in Ep as [Ep Qp]. split; [|exact Qp]. apply P1, Ep.
    + intros p Sp. apply P1, P2, Sp.
  - intros r E p Sp Qp. apply bind_fail in E as [E|(a & h1 & E1 & E2)]; [exact (F1 _ E p Sp (I p Sp Qp))|].
    destruct (O1 _ _ E1) as (L1 & P1 & X1). destruct (S _ _ _ P1 X1) as [_ F2].
    destruct (po_fwd _ _ _ _ _ P1 p Sp (I p Sp Qp)) as (p1 & A1 & S1).
    exact (F2 _ E2 p1 S1 (ST _ _ A1 Qp)).
Qed.

Lemma sp_conv {A} L h (m : U A) (R R' : A -> (nat -> list lab) -> heap -> Prop) (Q Q' : val -> Prop) :
  SP L h m R Q -> (forall p, eqs L h p -> (Q p <-> Q' p)) ->
  (forall a L' h', Post L h L' h' Q' -> R a L' h' -> R' a L' h') -> SP L h m R' Q'.
Proof.
  intros [O F] C CR. split.
  - intros a h' E. destruct (O _ _ E) as (L' & P & X). exists L'.
    assert (P' : Post L h L' h' Q').
    { destruct P as [P1 P2 P3 P4 P5 P6]. constructor; auto.
      - intros p Sp Qp. apply P4; [exact Sp|]. apply C; [exact (sat_eqs _ _ _ Sp)|exact Qp].
      - intros p Ep. apply P5 in Ep as [Ep Qp]. split; [exact Ep|]. apply C; assumption. }
    split; [exact P'|]. apply CR; assumption.
  - intros r E p Sp Qp. apply (F _ E p Sp). apply C; [exact (sat_eqs _ _ _ Sp)|exact Qp].
Qed.

Lemma post_refl L h (Q : val -> Prop) : inv G L h -> (forall p, eqs L h p -> Q p) -> Post L h L h Q.
Proof.
  intros I F. constructor; auto using grows_refl. intros p S _. exists p. split; [apply agree_refl|exact S].
Qed.

Lemma sp_ret {A} L h (a : A) (R : A -> (nat -> list lab) -> heap -> Prop) (Q : val -> Prop) : inv G L h ->
  (forall p, eqs L h p -> Q p) -> R a L h -> SP L h (ret a) R Q.
Proof.
  intros I F X. split; [|discriminate]. intros a' h' E. injection E as <- <-. exists L.
  split; [apply post_refl; assumption|exact X].
Qed.

Lemma sp_fail {A} L h r R (Q : val -> Prop) : (forall p, eqs L h p -> ~ Q p) -> SP L h (@fail A r) R Q.
Proof. intros F. split; [discriminate|]. intros r' _ p S. apply F. exact (sat_eqs _ _ _ S). Qed.

Lemma sp_fatal {A} L h R Q : SP L h (@fatal A) R Q.
Proof. split; discriminate. Qed.

Lemma sp_get_tv {A} L h v c (k : tvrec -> U A) R Q : nth_error (vs h) v = Some c ->
  SP L h (k c) R Q -> SP L h (bind (get_tv v) k) R Q.
Proof. intros E S. unfold SP, bind, get_tv. rewrite E. exact S. Qed.
Lemma sp_get_rec {A} L h v c (k : recrec -> U A) R Q : nth_error (rs h) v = Some c ->
  SP L h (k c) R Q -> SP L h (bind (get_rec v) k) R Q.
Proof. intros E S. unfold SP, bind, get_rec. rewrite E. exact S. Qed.
Lemma sp_get_row {A} L h v c (k : rowkind -> U A) R Q : nth_error (ws h) v = Some c ->
  SP L h (k c) R Q -> SP L h (bind (get_row v) k) R Q.
Proof. intros E S. unfold SP, bind, get_row. rewrite E. exact S. Qed.

Lemma comp_sat L h h' p : Comp G L h h' -> sat G vp L h p <-> sat G vp L h' p.
Proof.
  intros C. destruct (comp_mid G L vp h h' C) as [_ _ _ _ _ _ E A _]. rewrite !sat_split.
  split; intros [X Y].
  - split; [apply E, X|]. apply A; auto.
  - apply E in X. split; [exact X|]. apply A in Y; tauto.
Qed.

Lemma comp_post L h h' : Comp G L h h' -> Post L h L h' (fun _ => True).
Proof.
  intros C. constructor.
  - apply C.
  - exact (comp_grows _ _ _ _ C).
  - auto.
  - intros p S _. exists p. split; [apply agree_refl|]. apply (comp_sat _ _ _ _ C), S.
  - intros p E. split; [|exact I]. apply C, E.
  - intros p S. apply (comp_sat _ _ _ _ C), S.
Qed.

(** Composition with steps that keep the solutions. *)
Lemma post_comp_l L h h1 L' h' (Q Q' : val -> Prop) : Comp G L h h1 -> Post L h1 L' h' Q' ->
  (forall p, eqs L h p -> (Q p <-> Q' p)) -> Post L h L' h' Q.
Proof.
  intros C P F. pose proof (comp_grows _ _ _ _ C) as GR. pose proof (proj1 (proj2 C)) as (_ & _ & EW & _).
  destruct P as [P1 P2 P3 P4 P5 P6]. constructor.
  - exact P1.
  - eapply grows_trans; eauto.
  - intros w W. apply P3. rewrite EW. exact W.
  - intros p S Qp. destruct (P4 p) as (p' & A & S').
    + apply (comp_sat _ _ _ _ C), S.
    + apply F; [exact (sat_eqs _ _ _ S)|exact Qp].
    + exists p'. split; [exact (agree_grows _ _ _ _ GR A)|exact S'].
  - intros p E. apply P5 in E as [E Qp]. apply C in E. split; [exact E|]. apply F; assumption.
  - intros p S. apply P6 in S. apply (comp_sat _ _ _ _ C), S.
Qed.

Lemma sp_norm {A} L h n t (k : ty -> U A) R (Q : val -> Prop) : inv G L h -> wf_ty G h t ->
  (forall t' h1, Comp G L h h1 -> wf_ty G h1 t' -> nf h1 t' -> tail_ok h1 t' ->
     (forall p, eqs L h1 p -> den p t = den p t') -> SP L h1 (k t') R Q) ->
  SP L h (bind (normType n t) k) R Q.
Proof.
  intros I T S. split.
  - intros a h' E. apply bind_ok in E as (t' & h1 & E1 & E2).
    destruct (norm_comp G L _ _ _ _ _ E1 I T) as (C & T1 & N1 & D1 & N2).
    destruct (S t' h1 C T1 N1 (norm_tail _ _ _ _ _ E1) D1) as [O _]. destruct (O _ _ E2) as (L' & P & X).
    exists L'. split; [|exact X]. eapply post_comp_l; [exact C|exact P|]. reflexivity.
  - intros r E p Sp. apply bind_fail in E as [E|(t' & h1 & E1 & E2)]; [destruct (norm_nofail _ _ _ _ E)|].
    destruct (norm_comp G L _ _ _ _ _ E1 I T) as (C & T1 & N1 & D1 & N2).
    destruct (S t' h1 C T1 N1 (norm_tail _ _ _ _ _ E1) D1) as [_ F]. apply (F _ E2 p).
    apply (comp_sat _ _ _ _ C), Sp.
Qed.

(** ** Linking *)

Definition unit_tree : tree := TRec [].

Lemma unit_ok c : tv_ok G vp c unit_tree.
Proof. repeat split; cbn; auto; exact I. Qed.

Lemma link_step L h h3 v c t b (Q : val -> Prop) : inv G L h -> wf_ty G h t -> nf h t -> t <> VARt v ->
  FVt L h ([], [], []) b t -> ~ In v (fvsOf b) ->
  Mid G L vp h h3 Q -> (forall p, eqs L h p -> (Q p <-> tv_ok G vp c (den p t))) ->
  nth_error (vs h) v = Some c -> nth_error (vs h3) v = Some c -> tvKind c = NoLink ->
  Post L h L (upd_tv h3 v (mkTv (LinkTo t) (tvEqu c) (tvImp c) (tvOvl c) (tvLevel c)))
    (fun p => dv p v = den p t).
Proof.
  intros I T N NV F NI M HQ E0 E K.
  pose proof (mid_inv _ _ _ _ _ _ M) as I3. pose proof (mid_eqs _ _ _ _ _ _ M) as ME.
  set (h' := upd_tv h3 v _).
  assert (OP : opened h b).
  { apply (fv_open _ _ _ _ _ _ _ F). split; intros x []. }
  assert (B : (v < length (vs h3))%nat) by exact (nth_lt _ _ _ E).
  assert (EQB : forall p, eqs L h' p -> eqs L h3 p /\ dv p v = den p t).
  { intros p (A1 & A2 & A3). split.
    - split; [|split; [exact A2|exact A3]]. intros u cu Eu. destruct (Nat.eq_dec u v) as [->|NE].
      + rewrite E in Eu. injection Eu as <-. unfold eqv. rewrite K. exact Logic.I.
      + apply A1. cbn. rewrite set_nth_other by auto. exact Eu.
    - specialize (A1 v (mkTv (LinkTo t) (tvEqu c) (tvImp c) (tvOvl c) (tvLevel c))). unfold eqv in A1.
      apply A1. cbn. apply set_nth_same, B. }
  assert (EQF : forall p, eqs L h3 p -> dv p v = den p t -> eqs L h' p).
  { intros p (A1 & A2 & A3) D. split; [|split; [exact A2|exact A3]]. intros u cu Eu. cbn in Eu.
    apply set_nth_inv in Eu as [(-> & -> & _)|[_ Eu]]; [unfold eqv; cbn; exact D|auto]. }
  (* a solution of h3 with the free cells of p, except v *)
  assert (DET : forall p q, eqs L h p -> eqs L h q ->
    (forall u cu, nth_error (vs h3) u = Some cu -> tvKind cu = NoLink -> u <> v -> dv q u = dv p u) ->
    (forall w e i lv, nth_error (ws h3) w = Some (VARrow e i lv) -> dw q w = dw p w) -> den q t = den p t).
  { intros p q Ep Eq HV HW. apply (fv_det _ _ _ _ _ _ _ F q p Eq Ep). apply ME in Ep, Eq. split.
    - intros u J. destruct (mid_open _ _ _ _ _ _ M u (proj1 OP u J)) as (cu & Eu & Ku).
      assert (u <> v) by congruence. destruct Ku as [Ku|Ku]; [eauto|].
      rewrite (explicit_lev L h3 u cu p Ep Eu Ku). exact (explicit_lev L h3 u cu q Eq Eu Ku).
    - intros w J. assert (OW : openw h w) by (right; exact (proj2 OP w J)).
      destruct (mid_openw _ _ _ _ _ _ M w OW) as [X|(e & i & l & X)]; [|eauto].
      destruct Ep as (_ & _ & Ep), Eq as (_ & _ & Eq). specialize (Ep _ _ X). specialize (Eq _ _ X).
      cbn in *. congruence. }
  assert (SOL : forall p d, eqs L h p -> exists q, eqs L h q /\ dv q v = d /\
    (forall u cu, nth_error (vs h3) u = Some cu -> tvKind cu = NoLink -> u <> v -> dv q u = dv p u) /\
    (forall w e i lv, nth_error (ws h3) w = Some (VARrow e i lv) -> dw q w = dw p w)).
  { intros p d Ep. apply ME in Ep.
    destruct (inv_solve G L h3 (fun u => if Nat.eqb u v then d else dv p u) (dw p) I3) as (q & Q1 & Q2 & Q3).
    - intros w e i lv X. destruct Ep as (_ & _ & Ep). exact (Ep _ _ X).
    - exists q. split; [apply ME, Q1|]. split; [rewrite (Q2 _ _ E K), Nat.eqb_refl; reflexivity|].
      split; [|exact Q3]. intros u cu Eu Ku NE. rewrite (Q2 _ _ Eu Ku).
      destruct (Nat.eqb u v) eqn:X; [apply Nat.eqb_eq in X; congruence|reflexivity]. }
  assert (WF : wf G L h').
  { apply link_wf; [exact (proj1 I3)|exact B|exact (mid_wf_ty _ _ _ _ _ _ _ M T)|
                     exact (mid_nf _ _ _ _ _ _ _ M N)|exact NV]. }
  constructor.
  - split; [exact WF|]. destruct I as [_ [p Ep]]. destruct (SOL p (den p t) Ep) as (q & Q1 & Q2 & Q3 & Q4).
    exists q. apply EQF; [apply ME, Q1|]. rewrite Q2. symmetry. apply (DET p q); assumption.
  - unfold grows. cbn. rewrite set_nth_len, (mid_vs _ _ _ _ _ _ M), (mid_rs _ _ _ _ _ _ M), (mid_ws _ _ _ _ _ _ M). lia.
  - auto.
  - intros p S D. exists p. split; [apply agree_refl|]. apply sat_split in S as [Ep Ap].
    assert (Qp : Q p). { apply HQ; [exact Ep|]. rewrite <- D. exact (proj1 Ap _ _ E0 K). }
    assert (A3 : ats G vp h3 p) by (apply (mid_ats _ _ _ _ _ _ M p Ep); auto).
    apply sat_split. split; [apply EQF; [apply ME, Ep|exact D]|].
    split; [|exact (proj2 A3)]. intros u cu Eu Ku. cbn in Eu.
    apply set_nth_inv in Eu as [(-> & -> & _)|[_ Eu]]; [discriminate|]. exact (proj1 A3 _ _ Eu Ku).
  - intros p Ep. apply EQB in Ep as [Ep D]. split; [apply ME, Ep|exact D].
  - intros p S. apply sat_split in S as [Ep Ap]. apply EQB in Ep as [Ep D]. apply ME in Ep.
    destruct (SOL p unit_tree Ep) as (q & Q1 & Q2 & Q3 & Q4).
    assert (Aq : ats G vp h3 q).
    { split.
      - intros u cu Eu Ku. destruct (Nat.eq_dec u v) as [->|NE].
        + rewrite Q2. apply unit_ok.
        + rewrite (Q3 _ _ Eu Ku NE). apply (proj1 Ap); [|exact Ku]. cbn. rewrite set_nth_other by auto. exact Eu.
      - intros w e i lv X. rewrite (Q4 _ _ _ _ X). exact (proj2 Ap _ _ _ _ X). }
    apply (mid_ats _ _ _ _ _ _ M q Q1) in Aq as [_ Qq]. apply (HQ q Q1) in Qq.
    rewrite (DET p q Ep Q1 Q3 Q4) in Qq.
    assert (A3 : ats G vp h3 p).
    { split; [|exact (proj2 Ap)]. intros u cu Eu Ku. destruct (Nat.eq_dec u v) as [->|NE].
      - rewrite E in Eu. injection Eu as <-. rewrite D. exact Qq.
      - apply (proj1 Ap); [|exact Ku]. cbn. rewrite set_nth_other by auto. exact Eu. }
    apply (mid_ats _ _ _ _ _ _ M p Ep) in A3. apply sat_split. tauto.
Qed.

Lemma occur_check_spec v fvs h : (forall u h', occur_check v fvs h = Ok (u, h') -> h' = h /\ ~ In v fvs) /\
  (forall r, occur_check v fvs h = Fail r -> In v fvs).
Proof.
  unfold occur_check. induction fvs as [|x l IH]; cbn [app].
  - split; [|discriminate]. intros u h' H. injection H as _ <-. auto.
  - unfold bind. destruct (Nat.eqb v x) eqn:X; cbn.
    + apply Nat.eqb_eq in X. split; [discriminate|]. intros. left. congruence.
    + apply Nat.eqb_neq in X. destruct IH as [A B]. split.
      * intros u h' H. apply A in H as [-> H]. split; [reflexivity|]. intros [Y|Y]; congruence.
      * intros r H. right. eapply B; eauto.
Qed.

Lemma freeVars_var n h u b h' : nf h (VARt u) -> freeVarsType n ([], [], []) (VARt u) h = Ok (b, h') ->
  b = ([], [u], []).
Proof.
  intros (c & E & K) H. destruct n as [|n]; [discriminate|]. cbn [freeVarsType] in H. bok H t1 h1 X.
  assert (t1 = VARt u).
  { destruct n as [|n]; [discriminate|]. cbn [normType] in X. unfold bind, get_tv in X. rewrite E in X.
    destruct K as [K|K]; rewrite K in X; injection X as <- _; reflexivity. }
  subst t1. cbn in H. injection H as <- _. reflexivity.
Qed.

Lemma linkVarToType_sp L h n v c t : inv G L h -> wf_ty G h t -> nf h t -> t <> VARt v ->
  nth_error (vs h) v = Some c -> tvKind c = NoLink ->
  SP L h (linkVarToType n G vp v t) (fun _ L' h' => WW G L h L' h') (fun p => dv p v = den p t).
Proof.
  intros I T N NV E K. unfold linkVarToType.
  assert (X : forall b h1, freeVarsType n ([], [], []) t h = Ok (b, h1) ->
    SP L h1 (let '(fns, fvs, frvs) := b in occur_check v fvs;; (do c <- get_tv v;
       prune_level G (tvLevel c) b;; updateAttributes n G vp v t b;; setTvKind v (LinkTo t)))
       (fun _ L' h' => WW G L h1 L' h') (fun p => dv p v = den p t)).
  { intros b h1 EF. destruct (proj1 (freeVars_comp G L n) _ _ _ _ _ EF I T) as [C F].
    pose proof (comp_kp G L v c h h1 (or_introl K) C E) as E1.
    pose proof (proj1 C) as I1. pose proof (comp_wf_ty _ _ _ _ _ C T) as T1. pose proof (nf_comp _ _ _ _ _ C N) as N1.
    assert (F1 : FVt L h1 ([], [], []) b t).
    { destruct F as [F1 F2 F3 F4 F5]. constructor.
      - exact F1.
      - intros O. apply (opened_comp _ _ _ _ _ C). apply F2. apply (opened_comp _ _ _ _ _ C). exact O.
      - intros p Q. apply F3. apply C, Q.
      - intros p q Q Q'. apply F4; apply C; assumption.
      - intros u J. destruct (F5 u J) as [Y|Y]; [left; exact Y|right]. intros p Q. apply Y, C, Q. }
    pose proof (freeVars_var n h) as FVV. clear F. destruct b as [[fns fvs] frvs].
    assert (OP : opened h1 (fns, fvs, frvs)).
    { apply (fv_open _ _ _ _ _ _ _ F1). split; intros x []. }
    assert (HA : forall pc pr p, eqs L h1 p -> accOK pc pr p (fns, fvs, frvs) <-> alln pc pr (den p t)).
    { intros pc pr p Ep. rewrite (fv_all _ _ _ _ _ _ _ F1 p Ep). split; [tauto|]. intros Y. split; [|exact Y].
      repeat split; intros x []. }
    assert (HM : ~ In v fvs -> MS G L vp (kp v c) h1
       (prune_level G (tvLevel c) (fns, fvs, frvs);; updateAttributes n G vp v t (fns, fvs, frvs))
       (fun p => tv_ok G vp c (den p t))).
    { intros NI.
      assert (HV : forall u, In u fvs -> openv h1 u /\ u <> v).
      { intros u J. split; [exact (proj1 OP u J)|congruence]. }
      apply (ms_bind _ _ _ _ _ _ _ (fun p => lev_ok G (tvLevel c) (den p t))
        (fun p => (tvEqu c = true -> eq_ok G (den p t)) /\
               (tvImp c = true -> vp = false -> imp_ok (den p t)) /\
               (tvOvl c = true -> ovl_ok (den p t)))); [apply kp_pre| | |unfold tv_ok, attr_ok; intros; tauto].
      - eapply ms_conv; [apply (prune_ms G L vp v c h1 (tvLevel c)); [exact I1|exact HV]|].
        intros p Ep. apply HA, Ep.
      - intros _ h2 _ M2 K2. apply updateAttributes_ms.
        + exact K.
        + exact (mid_inv _ _ _ _ _ _ M2).
        + exact (mid_wf_ty _ _ _ _ _ _ _ M2 T1).
        + exact (K2 E1).
        + intros u J. destruct (HV u J) as [A B]. split; [exact (mid_open _ _ _ _ _ _ M2 _ A)|exact B].
        + intros p Ep. apply HA. apply (mid_eqs _ _ _ _ _ _ M2), Ep. }
    destruct (occur_check_spec v fvs h1) as [OC OF]. split.
    - intros a h' H. bok H u h2 H2. apply OC in H2 as [-> NI].
      bok H c1 h2 H2. apply get_tv_ok in H2 as [-> H2]. rewrite E1 in H2. injection H2 as <-.
      rewrite bind_assoc in H. bok H u2 h3 H2. destruct (HM NI) as [HO _]. destruct (HO _ _ H2) as [M3 K3].
      unfold setTvKind in H. bok H c3 h4 H3. apply get_tv_ok in H3 as [-> H3].
      specialize (K3 E1). rewrite K3 in H3. injection H3 as <-. unfold set_tv in H. injection H as _ <-.
      exists L. split.
      { apply (link_step L h1 h3 v c t (fns, fvs, frvs) (fun p => tv_ok G vp c (den p t))); auto. reflexivity. }
      pose proof (mid_nonew _ _ _ _ _ _ M3) as NN. apply WW_less; [exact (proj1 (proj2 NN))|]. intros Lam.
      apply (Nat.lt_le_trans _ (mu Lam L h3)); [|exact (nonew_mu Lam L _ _ NN)].
      apply (mu_link Lam L h3 v c _ K3 K). discriminate.
    - intros r H p Sp D. apply bind_fail in H as [H|(u & h2 & H2 & H)].
      + apply OF in H. pose proof (sat_eqs _ _ _ Sp) as Ep.
        destruct t as [x|x y|ts tn|x].
        * assert (Y : (fns, fvs, frvs) = ([], [x], [])) by (apply (FVV x _ h1 N EF)). injection Y as -> -> ->.
          destruct H as [->|[]]. congruence.
        * destruct (fv_size _ _ _ _ _ _ _ F1 v H) as [[]|Y]. specialize (Y p Ep). cbv beta in Y.
          rewrite D in Y. cbn [zt] in Y. pose proof (tsize_pos (den p (ARROWt x y))). lia.
        * destruct (fv_size _ _ _ _ _ _ _ F1 v H) as [[]|Y]. specialize (Y p Ep). cbv beta in Y.
          rewrite D in Y. cbn [zt] in Y. pose proof (tsize_pos (den p (CONt ts tn))). lia.
        * destruct (fv_size _ _ _ _ _ _ _ F1 v H) as [[]|Y]. specialize (Y p Ep). cbv beta in Y.
          rewrite D in Y. cbn [zt] in Y. pose proof (tsize_pos (den p (RECt x))). lia.
      + apply OC in H2 as [-> NI].
        apply bind_fail in H as [H|(c1 & h2 & H2 & H)]; [destruct (get_tv_nf _ _ _ H)|].
        apply get_tv_ok in H2 as [-> H2]. rewrite E1 in H2. injection H2 as <-.
        rewrite bind_assoc in H. destruct (HM NI) as [HO HF].
        apply bind_fail in H as [H|(u2 & h3 & H2 & H)].
        * apply sat_split in Sp as [Ep Ap]. apply (HF _ H p Ep). rewrite <- D. exact (proj1 Ap _ _ E1 K).
        * unfold setTvKind in H. apply bind_fail in H as [H|(c3 & h4 & H3 & H)]; [destruct (get_tv_nf _ _ _ H)|discriminate]. }
  split.
  - intros a h' H. bok H b h1 H1. destruct (X _ _ H1) as [O _].
    destruct (proj1 (freeVars_comp G L n) _ _ _ _ _ H1 I T) as [C _].
    destruct b as [[fns fvs] frvs]. destruct (O _ _ H) as (L' & P & X'). exists L'. split; [|exact (WW_trans _ _ _ _ _ _ _ (WW_comp _ _ _ _ C) X')].
    eapply post_comp_l; [exact C|exact P|]. reflexivity.
  - intros r H p Sp. apply bind_fail in H as [H|(b & h1 & H1 & H)]; [destruct (proj1 (freeVars_nofail n) _ _ _ _ H)|].
    destruct (X _ _ H1) as [_ F].
    destruct (proj1 (freeVars_comp G L n) _ _ _ _ _ H1 I T) as [C _].
    destruct b as [[fns fvs] frvs]. apply (F _ H p). apply (comp_sat _ _ _ _ C), Sp.
Qed.
End K.
