(** * Attributes: levels, equality, imperative and overloaded variables *)

From Coq Require Import ZArith List Bool Permutation Sorted Lia Arith.
From Verif Require Import Unify_Model Unify_Spec Unify_Base Unify_Sol Unify_Norm Unify_Meas Unify_Free.
Import ListNotations.
Open Scope Z_scope.

Lemma alln_impl (pc pc' : nat -> Prop) (pr pr' : bool -> Z -> Prop) t :
  (forall n, pc n -> pc' n) -> (forall i l, pr i l -> pr' i l) -> alln pc pr t -> alln pc' pr' t.
Proof.
  intros A B. induction t as [x y IHx IHy|ts tn IH|fs IH|v e i o l] using tree_ind'.
  - intros [X Y]. split; auto.
  - rewrite !alln_con. intros [X Y]. split; [auto|]. rewrite Forall_forall in *. auto.
  - rewrite !alln_rec. rewrite !Forall_forall in *. auto.
  - cbn. auto.
Qed.

Lemma lev_mono G l l' t : l <= l' -> lev_ok G l t -> lev_ok G l' t.
Proof. intros B. apply alln_impl; intros; lia. Qed.

Definition tail_ok (h : heap) (t : ty) : Prop :=
  match t with
  | RECt r => forall c, nth_error (rs h) r = Some c ->
      nth_error (ws h) (rho c) = Some NILrow \/ exists e i l, nth_error (ws h) (rho c) = Some (VARrow e i l)
  | _ => True
  end.

Lemma normRec_tail n : forall r h u h', normalizeRecType n r h = Ok (u, h') -> tail_ok h' (RECt r).
Proof.
  induction n as [|n IH]; intros r h u h' H; [discriminate|]. cbn [normalizeRecType] in H.
  bok H c h1 E1. apply get_rec_ok in E1 as [-> E1]. bok H k h2 E2. apply get_row_ok in E2 as [-> E2].
  destruct k as [|e i lv|w'|l t w'].
  - injection H as _ <-. cbn. intros c' E'. rewrite E1 in E'. injection E' as <-. auto.
  - injection H as _ <-. cbn. intros c' E'. rewrite E1 in E'. injection E' as <-. eauto.
  - bok H u1 h1 E. exact (IH _ _ _ _ H).
  - destruct (insertField (l, t) (fields c)) as [fs|]; [|discriminate].
    bok H u1 h1 E. bok H u2 h2 E3. exact (IH _ _ _ _ H).
Qed.

Lemma norm_tail n : forall t h t' h', normType n t h = Ok (t', h') -> tail_ok h' t'.
Proof.
  induction n as [|n IH]; intros t h t' h' H; [discriminate|]. cbn [normType] in H.
  destruct t as [v|a b|ts tn|r].
  - bok H c h1 E1. destruct (tvKind c) as [| |t0].
    + injection H as <- <-. exact Logic.I.
    + injection H as <- <-. exact Logic.I.
    + bok H t1 h2 E. apply IH in E. bok H u h3 E2. injection H as <- <-.
      unfold setTvKind in E2. bok E2 c1 h4 E3. apply get_tv_ok in E3 as [-> E3].
      unfold set_tv in E2. injection E2 as _ <-. exact E.
  - injection H as <- <-. exact Logic.I.
  - injection H as <- <-. exact Logic.I.
  - bok H u h1 E. injection H as <- <-. exact (normRec_tail _ _ _ _ _ E).
Qed.

Section A.
Variables (G : nat -> tninfo) (L : nat -> list lab) (vp : bool).

Definition openv (h : heap) (u : nat) : Prop :=
  exists c, nth_error (vs h) u = Some c /\ (tvKind c = NoLink \/ tvKind c = Explicit).

Definition openw (h : heap) (w : nat) : Prop :=
  nth_error (ws h) w = Some NILrow \/ exists e i l, nth_error (ws h) w = Some (VARrow e i l).

(** A step that changes nothing but attributes and the form of bound cells; it
    adds the constraint [Q]. *)
Record Mid (h h' : heap) (Q : val -> Prop) : Prop := mkMid
  { mid_inv : inv G L h';
    mid_vs : length (vs h') = length (vs h);
    mid_rs : length (rs h') = length (rs h);
    mid_ws : length (ws h') = length (ws h);
    mid_open : forall u, openv h u -> openv h' u;
    mid_openw : forall w, openw h w -> openw h' w;
    mid_eqs : forall p, eqs L h p <-> eqs L h' p;
    mid_ats : forall p, eqs L h p -> (ats G vp h' p <-> ats G vp h p /\ Q p);
    mid_nonew : nonew h h' }.

Lemma mid_refl h (Q : val -> Prop) : inv G L h -> (forall p, eqs L h p -> ats G vp h p -> Q p) -> Mid h h Q.
Proof. intros I F. constructor; auto using nonew_refl; try reflexivity. intros p E. split; [|tauto]. auto. Qed.

Lemma mid_trans a b c (Q1 Q2 Q : val -> Prop) : Mid a b Q1 -> Mid b c Q2 ->
  (forall p, eqs L a p -> (Q p <-> Q1 p /\ Q2 p)) -> Mid a c Q.
Proof.
  intros [A1 A2 A3 A4 A5 A5' A6 A7 A8] [B1 B2 B3 B4 B5 B5' B6 B7 B8] F. constructor; auto; try congruence.
  - intros p. rewrite A6. apply B6.
  - intros p E. rewrite (B7 p) by (apply A6, E). rewrite (A7 p E), (F p E). tauto.
  - exact (nonew_trans _ _ _ A8 B8).
Qed.

Lemma mid_conv a b (Q Q' : val -> Prop) : Mid a b Q ->
  (forall p, eqs L a p -> ats G vp a p -> (Q p <-> Q' p)) -> Mid a b Q'.
Proof.
  intros [A1 A2 A3 A4 A5 A5' A6 A7 A8] F. constructor; auto.
  intros p E. rewrite (A7 p E). split; intros [X Y]; (split; [exact X|]); apply (F p E X), Y.
Qed.

Lemma mid_wf_ty a b Q t : Mid a b Q -> wf_ty G a t -> wf_ty G b t.
Proof. intros [A1 A2 A3 _ _ _ _ _ _]. apply wf_ty_len; assumption. Qed.

Lemma mid_nf a b Q t : Mid a b Q -> nf a t -> nf b t.
Proof. intros M. destruct t; cbn; auto. apply (mid_open _ _ _ M). Qed.

Lemma comp_mid h h' : Comp G L h h' -> Mid h h' (fun _ => True).
Proof.
  intros CC. pose proof CC as (I & (A & B & C & S & S') & E). constructor; auto; try congruence.
  - intros u [c [X Y]]. exists c. auto.
  - unfold openw. rewrite C. auto.
  - intros p _. split.
    + intros [X Y]. split; [|exact Logic.I]. split.
      * intros v c N K. apply X; [apply S|]; auto.
      * rewrite C in Y. exact Y.
    + intros [[X Y] _]. split.
      * intros v c N K. apply X; [apply S'|]; auto.
      * rewrite C. exact Y.
  - exact (comp_nonew _ _ _ _ CC).
Qed.

(** [v]'s cell stays [c]. *)
Definition kp (v : nat) (c : tvrec) (h h' : heap) : Prop :=
  nth_error (vs h) v = Some c -> nth_error (vs h') v = Some c.

Lemma comp_kp v c h h' : tvKind c = NoLink \/ tvKind c = Explicit -> Comp G L h h' -> kp v c h h'.
Proof. intros O (_ & (_ & _ & _ & S & _) & _) E. auto. Qed.

(** A computation that constrains the variables by [Q], or fails if that is
    impossible. *)
Definition MS {A} (K : heap -> heap -> Prop) (h : heap) (m : U A) (Q : val -> Prop) : Prop :=
  (forall a h', m h = Ok (a, h') -> Mid h h' Q /\ K h h') /\
  (forall r, m h = Fail r -> forall p, eqs L h p -> ~ Q p).

Definition pre (K : heap -> heap -> Prop) : Prop :=
  (forall h, K h h) /\ (forall a b c, K a b -> K b c -> K a c).

Lemma kp_pre v c : pre (kp v c).
Proof. split; unfold kp; auto. Qed.

Lemma ms_ret {A} K h (a : A) (Q : val -> Prop) : pre K -> inv G L h -> (forall p, eqs L h p -> ats G vp h p -> Q p) ->
  MS K h (ret a) Q.
Proof.
  intros [KR _] I F. split; [|discriminate]. intros a' h' E. injection E as _ <-.
  split; [apply mid_refl; assumption|apply KR].
Qed.

Lemma ms_bind {A B} K h (m : U A) (k : A -> U B) (Q1 Q2 Q : val -> Prop) : pre K ->
  MS K h m Q1 ->
  (forall a h1, m h = Ok (a, h1) -> Mid h h1 Q1 -> K h h1 -> MS K h1 (k a) Q2) ->
  (forall p, eqs L h p -> (Q p <-> Q1 p /\ Q2 p)) ->
  MS K h (bind m k) Q.
Proof.
  intros [_ KT] [O1 F1] S F. split.
  - intros b h' E. apply bind_ok in E as (a & h1 & E1 & E2).
    destruct (O1 _ _ E1) as [M1 K1]. destruct (S _ _ E1 M1 K1) as [O2 _].
    destruct (O2 _ _ E2) as [M2 K2]. split; [|eauto]. eapply mid_trans; eauto.
  - intros r E p Ep Qp. apply F in Qp as [Q1p Q2p]; [|exact Ep].
    apply bind_fail in E as [E|(a & h1 & E1 & E2)]; [exact (F1 _ E p Ep Q1p)|].
    destruct (O1 _ _ E1) as [M1 K1]. destruct (S _ _ E1 M1 K1) as [_ F2].
    apply (F2 _ E2 p); [apply M1, Ep|exact Q2p].
Qed.

Lemma ms_conv {A} K h (m : U A) (Q Q' : val -> Prop) : MS K h m Q ->
  (forall p, eqs L h p -> (Q p <-> Q' p)) -> MS K h m Q'.
Proof.
  intros [O F] C. split.
  - intros a h' E. destruct (O _ _ E) as [M K1]. split; [|exact K1].
    eapply mid_conv; [exact M|]. intros p Ep _. auto.
  - intros r E p Ep Qp. apply (F _ E p Ep), C; assumption.
Qed.

Lemma ms_app {A} K (f : A -> U unit) (Q : A -> val -> Prop) : pre K ->
  forall l h, inv G L h ->
  (forall h1 Q1, Mid h h1 Q1 -> K h h1 -> forall x, In x l -> MS K h1 (f x) (Q x)) ->
  MS K h (app f l) (fun p => forall x, In x l -> Q x p).
Proof.
  intros PK. induction l as [|x l IH]; intros h I S; cbn [app].
  - apply ms_ret; [exact PK|exact I|]. intros p _ _ y [].
  - apply (ms_bind K h (f x) _ (Q x) (fun p => forall y, In y l -> Q y p)); [exact PK| | |].
    + apply (S h (fun _ => True)); [apply mid_refl; auto|apply PK|left; reflexivity].
    + intros u h1 _ M1 K1. apply IH; [exact (mid_inv _ _ _ M1)|].
      intros h2 Q2 M2 K2 y J. apply (S h2 (fun p => Q x p /\ Q2 p)); [|exact (proj2 PK _ _ _ K1 K2)|right; exact J].
      eapply mid_trans; [exact M1|exact M2|]. reflexivity.
    + intros p _. split.
      * intros H. split; [apply H; left; reflexivity|]. intros; apply H; right; assumption.
      * intros [H1 H2] y [<-|J]; auto.
Qed.

Lemma ms_get_tv {A} K h v c (k : tvrec -> U A) (Q : val -> Prop) : nth_error (vs h) v = Some c ->
  MS K h (k c) Q -> MS K h (bind (get_tv v) k) Q.
Proof. intros E S. unfold MS, bind, get_tv. rewrite E. exact S. Qed.

Lemma ms_get_rec {A} K h v c (k : recrec -> U A) (Q : val -> Prop) : nth_error (rs h) v = Some c ->
  MS K h (k c) Q -> MS K h (bind (get_rec v) k) Q.
Proof. intros E S. unfold MS, bind, get_rec. rewrite E. exact S. Qed.

Lemma ms_get_row {A} K h v c (k : rowkind -> U A) (Q : val -> Prop) : nth_error (ws h) v = Some c ->
  MS K h (k c) Q -> MS K h (bind (get_row v) k) Q.
Proof. intros E S. unfold MS, bind, get_row. rewrite E. exact S. Qed.

Lemma ms_fatal {A} K h (Q : val -> Prop) : MS K h (@fatal A) Q.
Proof. split; intros; discriminate. Qed.

Lemma ms_fail {A} K h r (Q : val -> Prop) : (forall p, eqs L h p -> ~ Q p) -> MS K h (@fail A r) Q.
Proof. intros F. split; intros; [discriminate|]. apply F; assumption. Qed.

(** ** Changing the attributes of a variable *)

Lemma attr_wf h v c c' : wf G L h -> nth_error (vs h) v = Some c -> tvKind c' = tvKind c ->
  wf G L (upd_tv h v c').
Proof.
  intros W E K.
  assert (WT : forall t, wf_ty G h t -> wf_ty G (upd_tv h v c') t)
    by (intros t; apply wf_ty_len; cbn; [apply set_nth_len|reflexivity]).
  pose proof (wf_vacc _ _ _ W) as VA.
  destruct W. constructor; cbn; eauto.
  - intros v0 c0 t0 E0 K0. apply set_nth_inv in E0 as [(-> & -> & _)|[_ E0]]; [|eauto].
    rewrite K in K0. eauto.
  - intros w l t0 w' H. destruct (wf_FIELDrow _ _ _ _ H) as (? & ? & ? & ?). auto.
  - intros x. induction (VA x) as [x _ IH]. constructor. intros y [cy [Ey Ky]]. cbn in Ey.
    apply IH. apply set_nth_inv in Ey as [(-> & -> & _)|[_ Ey]]; [exists c|exists cy]; split; auto; congruence.
Qed.

Lemma attr_eqs h v c c' p : nth_error (vs h) v = Some c -> tvKind c = NoLink -> tvKind c' = NoLink ->
  eqs L h p <-> eqs L (upd_tv h v c') p.
Proof.
  intros E K K'. split; intros (A & B & C); (split; [|split; [exact B|exact C]]); intros u cu Eu.
  - cbn in Eu. apply set_nth_inv in Eu as [(-> & -> & _)|[_ Eu]]; [|auto].
    unfold eqv. rewrite K'. exact Logic.I.
  - destruct (Nat.eq_dec u v) as [->|N].
    + rewrite E in Eu. injection Eu as <-. unfold eqv. rewrite K. exact Logic.I.
    + apply A. cbn. rewrite set_nth_other by auto. exact Eu.
Qed.

Lemma attr_step h v c c' (q : tree -> Prop) : inv G L h -> nth_error (vs h) v = Some c ->
  tvKind c = NoLink -> tvKind c' = NoLink ->
  (forall t, tv_ok G vp c' t <-> tv_ok G vp c t /\ q t) ->
  Mid h (upd_tv h v c') (fun p => q (dv p v)).
Proof.
  intros [W [p0 E0]] E K K' F. pose proof (nth_lt _ _ _ E) as B. constructor.
  - split; [eapply attr_wf; eauto; congruence|]. exists p0. apply (attr_eqs h v c c'); assumption.
  - cbn. apply set_nth_len.
  - reflexivity.
  - reflexivity.
  - intros u [cu [Eu Ou]]. destruct (Nat.eq_dec u v) as [->|N].
    + exists c'. cbn. rewrite set_nth_same by exact B. auto.
    + exists cu. cbn. rewrite set_nth_other by auto. auto.
  - auto.
  - intros p. apply (attr_eqs h v c c'); assumption.
  - intros p _. split.
    + intros [X Y].
      assert (Z1 : tv_ok G vp c' (dv p v)) by (apply X; [cbn; apply set_nth_same, B|exact K']).
      apply F in Z1 as [Z1 Z2]. split; [|exact Z2]. split; [|exact Y].
      intros u cu Eu Ku. destruct (Nat.eq_dec u v) as [->|N].
      * rewrite E in Eu. injection Eu as <-. exact Z1.
      * apply X; [|exact Ku]. cbn. rewrite set_nth_other by auto. exact Eu.
    + intros [[X Y] Z1]. split; [|exact Y]. intros u cu Eu Ku. cbn in Eu.
      apply set_nth_inv in Eu as [(-> & -> & _)|[_ Eu]]; [|auto].
      apply F. split; [|exact Z1]. auto.
  - split; [cbn; apply set_nth_len|]. split; [reflexivity|]. split; [|eauto].
    intros u cu Eu Ku. cbn in Eu. apply set_nth_inv in Eu as [(-> & -> & _)|[_ Eu]]; eauto.
Qed.

Lemma row_attr_wf h w e i lv e' i' lv' : wf G L h -> nth_error (ws h) w = Some (VARrow e i lv) ->
  wf G L (upd_row h w (VARrow e' i' lv')).
Proof.
  intros W E.
  assert (WT : forall t, wf_ty G h t -> wf_ty G (upd_row h w (VARrow e' i' lv')) t)
    by (intros t; apply wf_ty_len; reflexivity).
  pose proof (wf_wacc _ _ _ W) as WA.
  destruct W. constructor; cbn; rewrite ?set_nth_len; eauto.
  - intros w0 w1 E0. apply set_nth_inv in E0 as [(_ & X & _)|[_ E0]]; [discriminate|]. eauto.
  - intros w0 l t w1 E0. apply set_nth_inv in E0 as [(_ & X & _)|[_ E0]]; [discriminate|].
    destruct (wf_FIELDrow _ _ _ _ E0) as (? & ? & ? & ?). auto.
  - intros x. induction (WA x) as [x _ IH]. constructor. intros y Ey. unfold wlink in Ey. cbn in Ey.
    apply set_nth_inv in Ey as [(_ & X & _)|[_ Ey]]; [discriminate|]. apply IH. exact Ey.
Qed.

Lemma row_attr_eqs h w e i lv e' i' lv' p : nth_error (ws h) w = Some (VARrow e i lv) ->
  eqs L h p <-> eqs L (upd_row h w (VARrow e' i' lv')) p.
Proof.
  intros E. split; intros (A & B & C); (split; [exact A|split; [exact B|]]); intros u ku Eu.
  - cbn in Eu. apply set_nth_inv in Eu as [(-> & -> & _)|[_ Eu]]; [|auto]. exact (C _ _ E).
  - destruct (Nat.eq_dec u w) as [->|N].
    + rewrite E in Eu. injection Eu as <-. apply (C w (VARrow e' i' lv')). cbn.
      apply set_nth_same. exact (nth_lt _ _ _ E).
    + apply C. cbn. rewrite set_nth_other by auto. exact Eu.
Qed.

Lemma row_attr_step h w e i lv e' i' lv' (q : tree -> Prop) : inv G L h ->
  nth_error (ws h) w = Some (VARrow e i lv) ->
  (forall t, attr_ok G vp e' i' lv' t <-> attr_ok G vp e i lv t /\ q t) ->
  Mid h (upd_row h w (VARrow e' i' lv')) (fun p => Forall (fun f => q (snd f)) (dw p w)).
Proof.
  intros [W [p0 E0]] E F. pose proof (nth_lt _ _ _ E) as B. constructor.
  - split; [eapply row_attr_wf; eauto|]. exists p0. apply (row_attr_eqs h w e i lv); assumption.
  - reflexivity.
  - reflexivity.
  - cbn. apply set_nth_len.
  - auto.
  - intros u O. destruct (Nat.eq_dec u w) as [->|N].
    + right. exists e', i', lv'. cbn. apply set_nth_same, B.
    + unfold openw. cbn. rewrite set_nth_other by auto. exact O.
  - intros p. apply (row_attr_eqs h w e i lv); assumption.
  - intros p _. split.
    + intros [X Y].
      assert (Z1 : forall l t, In (l, t) (dw p w) -> attr_ok G vp e' i' lv' t).
      { apply Y. cbn. apply set_nth_same, B. }
      split.
      * split; [exact X|]. intros u eu iu lu Eu l t J. destruct (Nat.eq_dec u w) as [->|N].
        -- rewrite E in Eu. injection Eu as <- <- <-. specialize (Z1 _ _ J). apply F in Z1. tauto.
        -- eapply Y; [|exact J]. cbn. rewrite set_nth_other by auto. exact Eu.
      * apply Forall_forall. intros [l t] J. specialize (Z1 _ _ J). apply F in Z1. cbn. tauto.
    + intros [[X Y] Z1]. split; [exact X|]. intros u eu iu lu Eu l t J. cbn in Eu.
      apply set_nth_inv in Eu as [(-> & Ek & _)|[_ Eu]]; [|eauto]. injection Ek as -> -> ->.
      apply F. split; [eauto|]. rewrite Forall_forall in Z1. exact (Z1 _ J).
  - split; [reflexivity|]. split; [cbn; apply set_nth_len|]. split; [eauto|].
    intros u eu iu lu Eu. cbn in Eu. apply set_nth_inv in Eu as [(-> & _ & _)|[_ Eu]]; eauto.
Qed.

(** ** The functions that change attributes *)

Variables (v0 : nat) (c0 : tvrec).
Hypothesis O0 : tvKind c0 = NoLink.

Lemma ms_set_tv h v c c' (q : tree -> Prop) : inv G L h -> nth_error (vs h) v = Some c ->
  tvKind c = NoLink -> tvKind c' = NoLink ->
  (forall t, tv_ok G vp c' t <-> tv_ok G vp c t /\ q t) -> (v <> v0 \/ c <> c0) ->
  MS (kp v0 c0) h (set_tv v c') (fun p => q (dv p v)).
Proof.
  intros I E K K' F N. split; [|discriminate]. intros a h' X. injection X as _ <-. split.
  - apply (attr_step h v c c' q); assumption.
  - intros E'. cbn. destruct (Nat.eq_dec v v0) as [->|NE]; [|rewrite set_nth_other by auto; exact E'].
    rewrite E in E'. injection E' as ->. destruct N; congruence.
Qed.

Lemma explicit_lev h u c p : eqs L h p -> nth_error (vs h) u = Some c -> tvKind c = Explicit ->
  dv p u = TRig u (tvEqu c) (tvImp c) (tvOvl c) (tvLevel c).
Proof. intros (A & _) E K. specialize (A _ _ E). unfold eqv in A. rewrite K in A. exact A. Qed.

Lemma prune_ms h lvl fns fvs frvs : inv G L h ->
  (forall u, In u fvs -> openv h u /\ u <> v0) ->
  MS (kp v0 c0) h (prune_level G lvl (fns, fvs, frvs))
     (fun p => accOK (fun tn => tnLevel (G tn) <= lvl) (fun _ l => l <= lvl) p (fns, fvs, frvs)).
Proof.
  intros I HV. unfold prune_level.
  apply (ms_bind (kp v0 c0) h _ _ (fun _ => forall x, In x fns -> tnLevel (G x) <= lvl)
    (fun p => (forall x, In x fvs -> lev_ok G lvl (dv p x)) /\
              (forall w, In w frvs -> Forall (fun f => lev_ok G lvl (snd f)) (dw p w))));
    [apply kp_pre| | |intros p _; unfold accOK; cbn; tauto].
  - apply (ms_app (kp v0 c0) _ (fun x _ => tnLevel (G x) <= lvl)); [apply kp_pre|exact I|].
    intros h1 Q1 M1 _ x J. destruct (lvl <? tnLevel (G x)) eqn:E.
    + apply ms_fail. apply Z.ltb_lt in E. intros p _ X. lia.
    + apply Z.ltb_ge in E. apply ms_ret; [apply kp_pre|exact (mid_inv _ _ _ M1)|auto].
  - intros _ h1 _ M1 _.
    apply (ms_bind (kp v0 c0) h1 _ _ (fun p => forall x, In x fvs -> lev_ok G lvl (dv p x))
      (fun p => forall w, In w frvs -> Forall (fun f => lev_ok G lvl (snd f)) (dw p w)));
      [apply kp_pre| | |reflexivity].
    + apply (ms_app (kp v0 c0) _ (fun x p => lev_ok G lvl (dv p x))); [apply kp_pre|exact (mid_inv _ _ _ M1)|].
      intros h2 Q2 M2 _ x J. destruct (HV x J) as [Ox Nx].
      apply (mid_open _ _ _ M1), (mid_open _ _ _ M2) in Ox as (c & E & K).
      apply (ms_get_tv _ _ _ c); [exact E|]. pose proof (mid_inv _ _ _ M2) as I2.
      destruct (lvl <? tvLevel c) eqn:EL.
      * apply Z.ltb_lt in EL. unfold isExplicit. destruct K as [K|K]; rewrite K.
        -- unfold setTvLevel. apply (ms_get_tv _ _ _ c); [exact E|].
           apply (ms_set_tv h2 x c _ (fun t => lev_ok G lvl t)); [exact I2|exact E|exact K|exact K| |left; exact Nx].
           intros t. unfold tv_ok, attr_ok. cbn. split; [|tauto].
           intros [[A B] C]. split; [|exact A]. split; [|exact C]. split; [|exact B].
           apply (lev_mono G lvl); [lia|exact A].
        -- apply ms_fail. intros p Ep X. rewrite (explicit_lev _ _ _ _ Ep E K) in X. cbn in X. lia.
      * apply Z.ltb_ge in EL. apply ms_ret; [apply kp_pre|exact I2|]. intros p Ep Ap.
        destruct K as [K|K].
        -- apply (lev_mono G (tvLevel c)); [exact EL|]. apply (proj1 Ap _ _ E K).
        -- rewrite (explicit_lev _ _ _ _ Ep E K). cbn. exact EL.
    + intros _ h2 _ M2 _.
      apply (ms_app (kp v0 c0) _ (fun w p => Forall (fun f => lev_ok G lvl (snd f)) (dw p w)));
        [apply kp_pre|exact (mid_inv _ _ _ M2)|].
      intros h3 Q3 M3 _ w J. pose proof (mid_inv _ _ _ M3) as I3.
      destruct (nth_error (ws h3) w) as [k|] eqn:E.
      2:{ split; intros; unfold bind, get_row in *; rewrite E in *; discriminate. }
      apply (ms_get_row _ _ _ k); [exact E|]. destruct k as [|e i l|w'|l t w']; try apply ms_fatal.
      destruct (lvl <? l) eqn:EL.
      * apply Z.ltb_lt in EL. unfold setRvLevel. apply (ms_get_row _ _ _ _ _ _ E).
        split; [|discriminate]. intros a h' X. injection X as _ <-. split.
        -- apply (row_attr_step h3 w e i l e i lvl (fun t => lev_ok G lvl t)); [exact I3|exact E|].
           intros t. unfold attr_ok. split; [|tauto]. intros [A B]. split; [|exact A]. split; [|exact B].
           apply (lev_mono G lvl); [lia|exact A].
        -- unfold kp. auto.
      * apply Z.ltb_ge in EL. apply ms_ret; [apply kp_pre|exact I3|]. intros p Ep Ap.
        apply Forall_forall. intros [l0 t0] J0. cbn. apply (lev_mono G l); [exact EL|].
        apply (proj2 Ap _ _ _ _ E _ _ J0).
Qed.

Lemma norm_ms {A} h n t (k : ty -> U A) (Q : val -> Prop) : inv G L h -> wf_ty G h t ->
  (forall t' h1, Comp G L h h1 -> wf_ty G h1 t' -> nf h1 t' -> tail_ok h1 t' ->
     (forall p, eqs L h1 p -> den p t = den p t') -> MS (kp v0 c0) h1 (k t') Q) ->
  MS (kp v0 c0) h (bind (normType n t) k) Q.
Proof.
  intros I T S. apply (ms_bind (kp v0 c0) h _ _ (fun _ => True) Q); [apply kp_pre| | |intros; tauto].
  - split; [|intros r X; destruct (norm_nofail _ _ _ _ X)]. intros t' h1 E.
    destruct (norm_comp G L _ _ _ _ _ E I T) as (C & _). split; [apply comp_mid, C|].
    apply comp_kp; auto.
  - intros t' h1 E _ _. destruct (norm_comp G L _ _ _ _ _ E I T) as (C & T1 & N1 & D1 & N2).
    apply S; auto. exact (norm_tail _ _ _ _ _ E).
Qed.

Lemma makeEquality_ms n : tvEqu c0 = true -> forall h t, inv G L h -> wf_ty G h t ->
  MS (kp v0 c0) h (makeEquality n G t) (fun p => eq_ok G (den p t)).
Proof.
  intros Q0. induction n as [|n IH]; intros h t I T; [split; intros; discriminate|].
  cbn [makeEquality]. apply norm_ms; [exact I|exact T|].
  intros t' h1 C T1 N1 TL D. pose proof (proj1 C) as I1.
  apply (ms_conv _ _ _ (fun p => eq_ok G (den p t'))); [|intros p Ep; rewrite (D p Ep); reflexivity].
  clear D C T I h t. destruct t' as [v|a b|ts tn|r].
  - destruct N1 as (c & E & K). apply (ms_get_tv _ _ _ c); [exact E|]. cbn [den].
    destruct (tvEqu c) eqn:Q.
    + apply ms_ret; [apply kp_pre|exact I1|]. intros p Ep Ap. destruct K as [K|K].
      * apply (proj1 Ap _ _ E K). exact Q.
      * rewrite (explicit_lev _ _ _ _ Ep E K). exact Q.
    + unfold isExplicit. destruct K as [K|K]; rewrite K.
      * unfold setTvEqu. apply (ms_get_tv _ _ _ c); [exact E|].
        apply (ms_set_tv h1 v c _ (eq_ok G)); [exact I1|exact E|exact K|exact K| |right; congruence].
        intros t. unfold tv_ok, attr_ok. cbn. split.
        -- intros [(A & B & D) F]. split; [|auto]. split; [|exact F]. split; [exact A|]. split; [congruence|exact D].
        -- intros [[(A & B & D) F] X]. split; [|exact F]. split; [exact A|]. split; [auto|exact D].
      * apply ms_fail. intros p Ep X. rewrite (explicit_lev _ _ _ _ Ep E K) in X. cbn in X. congruence.
  - apply ms_fail. intros p _ X. exact X.
  - apply wf_con in T1 as [_ TS].
    destruct (tnEqu (G tn)) eqn:Q.
    + apply ms_fail. intros p _ X. cbn [den] in X. apply eq_con in X. rewrite Q in X. exact X.
    + apply (ms_conv _ _ _ (fun p => forall t, In t ts -> eq_ok G (den p t))).
      * apply (ms_app (kp v0 c0) _ (fun t p => eq_ok G (den p t))); [apply kp_pre|exact I1|].
        intros h2 Q2 M2 _ t J. apply IH; [exact (mid_inv _ _ _ M2)|].
        apply (mid_wf_ty _ _ _ _ M2). rewrite Forall_forall in TS. auto.
      * intros p _. cbn [den]. rewrite eq_con, Q. rewrite Forall_map, Forall_forall. reflexivity.
    + apply ms_ret; [apply kp_pre|exact I1|]. intros p _ _. cbn [den]. apply eq_con. rewrite Q. exact Logic.I.
  - destruct (nth_ex _ _ T1) as [c E]. apply (ms_get_rec _ _ _ c); [exact E|].
    apply (ms_bind (kp v0 c0) h1 _ _ (fun p => forall t, In t (map snd (fields c)) -> eq_ok G (den p t))
      (fun p => Forall (fun f => eq_ok G (snd f)) (dw p (rho c)))); [apply kp_pre| | |].
    + apply (ms_app (kp v0 c0) _ (fun t p => eq_ok G (den p t))); [apply kp_pre|exact I1|].
      intros h2 Q2 M2 _ t J. apply IH; [exact (mid_inv _ _ _ M2)|]. apply (mid_wf_ty _ _ _ _ M2).
      apply in_map_iff in J as [[l t0] [<- J]]. exact (wf_fields _ _ _ (proj1 I1) _ _ _ _ E J).
    + intros _ h2 _ M2 _. pose proof (mid_inv _ _ _ M2) as I2. unfold makeEqualityRho.
      assert (B : (rho c < length (ws h2))%nat).
      { rewrite (mid_ws _ _ _ M2). exact (wf_rho _ _ _ (proj1 I1) _ _ E). }
      destruct (nth_ex _ _ B) as [k Ek]. apply (ms_get_row _ _ _ k); [exact Ek|].
      pose proof (mid_openw _ _ _ M2 _ (TL _ E)) as OW.
      destruct k as [|e i l|w'|l t w'].
      * apply ms_ret; [apply kp_pre|exact I2|]. intros p (_ & _ & X) _. specialize (X _ _ Ek). cbn in X.
        rewrite X. constructor.
      * unfold setRvEqu. apply (ms_get_row _ _ _ _ _ _ Ek). split; [|discriminate].
        intros a h' X. injection X as _ <-. split; [|unfold kp; auto].
        apply (row_attr_step h2 (rho c) e i l true i l (eq_ok G)); [exact I2|exact Ek|].
        intros t. unfold attr_ok. split.
        -- intros (A & B0 & D). split; [|auto]. split; [exact A|]. split; [auto|exact D].
        -- intros [(A & B0 & D) X]. split; [exact A|]. split; [auto|exact D].
      * destruct OW as [X|(? & ? & ? & X)]; rewrite Ek in X; discriminate.
      * destruct OW as [X|(? & ? & ? & X)]; rewrite Ek in X; discriminate.
    + intros p Ep. cbn [den]. rewrite eq_rec. destruct Ep as (_ & Er & _). specialize (Er _ _ E).
      destruct Er as [_ P]. split.
      * intros F. apply (Forall_perm _ _ _ (Permutation_sym P)) in F. apply Forall_app in F as [F1 F2].
        split; [|exact F2]. intros t J. apply in_map_iff in J as [[l t0] [<- J]].
        rewrite Forall_forall in F1. apply (F1 (l, den p t0)). apply in_map_iff. exists (l, t0). auto.
      * intros [F1 F2]. apply (Forall_perm _ _ _ P). apply Forall_app. split; [|exact F2].
        apply Forall_forall. intros [l d] J. apply denf_in in J as (t & J & ->). cbn. apply F1.
        apply in_map_iff. exists (l, t). auto.
Qed.

Lemma makeImperative_ms h fns fvs frvs : vp = false -> inv G L h ->
  (forall u, In u fvs -> openv h u /\ u <> v0) ->
  MS (kp v0 c0) h (makeImperative (fns, fvs, frvs))
     (fun p => accOK (fun _ => True) (fun i _ => i = true) p (fns, fvs, frvs)).
Proof.
  intros VP I HV. unfold makeImperative.
  apply (ms_bind (kp v0 c0) h _ _ (fun p => forall x, In x fvs -> imp_ok (dv p x))
      (fun p => forall w, In w frvs -> Forall (fun f => imp_ok (snd f)) (dw p w)));
      [apply kp_pre| | |intros p _; unfold accOK, imp_ok; cbn; tauto].
  - apply (ms_app (kp v0 c0) _ (fun x p => imp_ok (dv p x))); [apply kp_pre|exact I|].
    intros h2 Q2 M2 _ x J. destruct (HV x J) as [Ox Nx]. apply (mid_open _ _ _ M2) in Ox as (c & E & K).
    apply (ms_get_tv _ _ _ c); [exact E|]. pose proof (mid_inv _ _ _ M2) as I2.
    destruct (tvImp c) eqn:EI.
    + apply ms_ret; [apply kp_pre|exact I2|]. intros p Ep Ap. destruct K as [K|K].
      * destruct (proj1 Ap _ _ E K) as [(_ & _ & X) _]. auto.
      * rewrite (explicit_lev _ _ _ _ Ep E K). exact EI.
    + unfold isExplicit. destruct K as [K|K]; rewrite K.
      * unfold setTvImp. apply (ms_get_tv _ _ _ c); [exact E|].
        apply (ms_set_tv h2 x c _ imp_ok); [exact I2|exact E|exact K|exact K| |left; exact Nx].
        intros t. unfold tv_ok, attr_ok. cbn. split.
        -- intros [(A & B & D) F]. split; [|auto]. split; [|exact F]. split; [exact A|]. split; [exact B|auto].
        -- intros [[(A & B & D) F] X]. split; [|exact F]. split; [exact A|]. split; [exact B|auto].
      * apply ms_fail. intros p Ep X. rewrite (explicit_lev _ _ _ _ Ep E K) in X. cbn in X. congruence.
  - intros _ h2 _ M2 _.
    apply (ms_app (kp v0 c0) _ (fun w p => Forall (fun f => imp_ok (snd f)) (dw p w)));
      [apply kp_pre|exact (mid_inv _ _ _ M2)|].
    intros h3 Q3 M3 _ w J. pose proof (mid_inv _ _ _ M3) as I3. unfold setRvImp.
    destruct (nth_error (ws h3) w) as [k|] eqn:E.
    2:{ split; intros; unfold bind, get_row in *; rewrite E in *; discriminate. }
    apply (ms_get_row _ _ _ k); [exact E|]. destruct k as [|e i l|w'|l t w']; try apply ms_fatal.
    split; [|discriminate]. intros a h' X. injection X as _ <-. split; [|unfold kp; auto].
    apply (row_attr_step h3 w e i l e true l imp_ok); [exact I3|exact E|].
    intros t. unfold attr_ok. split.
    + intros (A & B & D). split; [|auto]. split; [exact A|]. split; [exact B|auto].
    + intros [(A & B & D) X]. split; [exact A|]. split; [exact B|auto].
Qed.

Lemma makeOverloaded_ms n h t : tvOvl c0 = true -> inv G L h -> wf_ty G h t ->
  MS (kp v0 c0) h (makeOverloaded n t) (fun p => ovl_ok (den p t)).
Proof.
  intros Q0 I T. unfold makeOverloaded. apply norm_ms; [exact I|exact T|].
  intros t' h1 C T1 N1 TL D. pose proof (proj1 C) as I1.
  apply (ms_conv _ _ _ (fun p => ovl_ok (den p t'))); [|intros p Ep; rewrite (D p Ep); reflexivity].
  destruct t' as [v|a b|ts tn|r]; try (apply ms_ret; [apply kp_pre|exact I1|intros; exact Logic.I]).
  destruct N1 as (c & E & K). apply (ms_get_tv _ _ _ c); [exact E|]. cbn [den].
  destruct (tvOvl c) eqn:Q.
  - apply ms_ret; [apply kp_pre|exact I1|]. intros p Ep Ap. destruct K as [K|K].
    + apply (proj1 Ap _ _ E K). exact Q.
    + rewrite (explicit_lev _ _ _ _ Ep E K). exact Q.
  - unfold isExplicit. destruct K as [K|K]; rewrite K.
    + unfold setTvOvl. apply (ms_get_tv _ _ _ c); [exact E|].
      apply (ms_set_tv h1 v c _ ovl_ok); [exact I1|exact E|exact K|exact K| |right; congruence].
      intros t0. unfold tv_ok. cbn. split.
      * intros [A F]. split; [|auto]. split; [exact A|]. congruence.
      * intros [[A F] X]. auto.
    + apply ms_fail. intros p Ep X. rewrite (explicit_lev _ _ _ _ Ep E K) in X. cbn in X. congruence.
Qed.

Lemma ms_when K h (b : bool) (m : U unit) (Q : val -> Prop) : pre K -> inv G L h ->
  (b = true -> MS K h m Q) -> MS K h (if b then m else ret tt) (fun p => b = true -> Q p).
Proof.
  intros PK I S. destruct b.
  - apply (ms_conv _ _ _ Q); [auto|]. intros; tauto.
  - apply ms_ret; auto. intros. discriminate.
Qed.

Lemma updateAttributes_ms n h t fns fvs frvs : inv G L h -> wf_ty G h t ->
  nth_error (vs h) v0 = Some c0 ->
  (forall u, In u fvs -> openv h u /\ u <> v0) ->
  (forall p, eqs L h p -> (accOK (fun _ => True) (fun i _ => i = true) p (fns, fvs, frvs) <-> imp_ok (den p t))) ->
  MS (kp v0 c0) h (updateAttributes n G vp v0 t (fns, fvs, frvs))
     (fun p => (tvEqu c0 = true -> eq_ok G (den p t)) /\
               (tvImp c0 = true -> vp = false -> imp_ok (den p t)) /\
               (tvOvl c0 = true -> ovl_ok (den p t))).
Proof.
  intros I T E HV HI. unfold updateAttributes. apply (ms_get_tv _ _ _ c0); [exact E|].
  apply (ms_bind (kp v0 c0) h _ _ (fun p => tvEqu c0 = true -> eq_ok G (den p t))
    (fun p => (tvImp c0 = true -> vp = false -> imp_ok (den p t)) /\ (tvOvl c0 = true -> ovl_ok (den p t))));
    [apply kp_pre| | |reflexivity].
  - apply (ms_when _ _ _ _ (fun p => eq_ok G (den p t))); [apply kp_pre|exact I|].
    intros Q. apply makeEquality_ms; assumption.
  - intros _ h1 _ M1 K1. pose proof (mid_inv _ _ _ M1) as I1.
    apply (ms_bind (kp v0 c0) h1 _ _ (fun p => tvImp c0 = true -> vp = false -> imp_ok (den p t))
      (fun p => tvOvl c0 = true -> ovl_ok (den p t))); [apply kp_pre| | |reflexivity].
    + apply (ms_conv _ _ _ (fun p => tvImp c0 && negb vp = true -> imp_ok (den p t))).
      2:{ intros p _. rewrite andb_true_iff, negb_true_iff. tauto. }
      apply (ms_when _ _ _ _ (fun p => imp_ok (den p t))); [apply kp_pre|exact I1|].
      intros Q. apply andb_true_iff in Q as [_ Q]. apply negb_true_iff in Q.
      apply (ms_conv _ _ _ (fun p => accOK (fun _ => True) (fun i _ => i = true) p (fns, fvs, frvs))).
      * apply makeImperative_ms; [exact Q|exact I1|]. intros u J. destruct (HV u J) as [A B].
        split; [exact (mid_open _ _ _ M1 _ A)|exact B].
      * intros p Ep. apply HI. apply M1, Ep.
    + intros _ h2 _ M2 _. apply (ms_when _ _ _ _ (fun p => ovl_ok (den p t)));
        [apply kp_pre|exact (mid_inv _ _ _ M2)|].
      intros Q. apply makeOverloaded_ms; [exact Q|exact (mid_inv _ _ _ M2)|].
      apply (mid_wf_ty _ _ _ _ M2), (mid_wf_ty _ _ _ _ M1), T.
Qed.
End A.
