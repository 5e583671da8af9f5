(** * Normalisation: record nodes and path compression keep the solutions *)

From Coq Require Import ZArith List Bool Permutation Sorted Lia Arith.
From Verif Require Import Unify_Model Unify_Spec Unify_Base Unify_Sol.
Import ListNotations.
Open Scope Z_scope.

Lemma bind_ok {A B} (m : U A) (k : A -> U B) h b h' : bind m k h = Ok (b, h') ->
  exists a h1, m h = Ok (a, h1) /\ k a h1 = Ok (b, h').
Proof. unfold bind. destruct (m h) as [[a h1]| | |]; intros H; try discriminate. eauto. Qed.

Lemma bind_fail {A B} (m : U A) (k : A -> U B) h r : bind m k h = Fail r ->
  m h = Fail r \/ exists a h1, m h = Ok (a, h1) /\ k a h1 = Fail r.
Proof. unfold bind. destruct (m h) as [[a h1]| | |]; intros H; try discriminate; [right; eauto|left; congruence]. Qed.

Lemma get_tv_ok v h c h' : get_tv v h = Ok (c, h') -> h' = h /\ nth_error (vs h) v = Some c.
Proof. unfold get_tv. destruct (nth_error (vs h) v); intros H; [injection H as <- <-; auto|discriminate]. Qed.
Lemma get_rec_ok v h c h' : get_rec v h = Ok (c, h') -> h' = h /\ nth_error (rs h) v = Some c.
Proof. unfold get_rec. destruct (nth_error (rs h) v); intros H; [injection H as <- <-; auto|discriminate]. Qed.
Lemma get_row_ok v h c h' : get_row v h = Ok (c, h') -> h' = h /\ nth_error (ws h) v = Some c.
Proof. unfold get_row. destruct (nth_error (ws h) v); intros H; [injection H as <- <-; auto|discriminate]. Qed.
Lemma get_tv_nf v h r : get_tv v h <> Fail r.
Proof. unfold get_tv. destruct (nth_error _ _); discriminate. Qed.
Lemma get_rec_nf v h r : get_rec v h <> Fail r.
Proof. unfold get_rec. destruct (nth_error _ _); discriminate. Qed.
Lemma get_row_nf v h r : get_row v h <> Fail r.
Proof. unfold get_row. destruct (nth_error _ _); discriminate. Qed.

Ltac bok H a h1 E := apply bind_ok in H as (a & h1 & E & H).

Section N.
Variables (G : nat -> tninfo) (L : nat -> list lab).

(** ** Steps that leave the unbound cells alone *)

Definition Comp (h h' : heap) : Prop :=
  inv G L h' /\ same_open h h' /\ (forall p, eqs L h p <-> eqs L h' p).

Lemma comp_refl h : inv G L h -> Comp h h.
Proof. intros I. split; [exact I|]. split; [apply same_open_refl|reflexivity]. Qed.

Lemma comp_trans a b c : Comp a b -> Comp b c -> Comp a c.
Proof.
  intros (I1 & S1 & E1) (I2 & S2 & E2). split; [exact I2|].
  split; [eapply same_open_trans; eauto|]. intros p. rewrite E1. apply E2.
Qed.

Lemma comp_step h h' : inv G L h -> wf G L h' -> same_open h h' ->
  (forall q, eqs L h q -> eqs L h' q) -> Comp h h'.
Proof.
  intros I W S F. split; [|split; [exact S|]].
  - split; [exact W|]. destruct I as [_ [p E]]. exists p. auto.
  - intros p. split; [apply F|]. exact (rewrite_back G L h h' p I W S F).
Qed.

Lemma comp_grows h h' : Comp h h' -> grows h h'.
Proof. intros (_ & (A & B & C & _) & _). unfold grows. rewrite A, B, C. lia. Qed.

Lemma comp_wf_ty h h' t : Comp h h' -> wf_ty G h t -> wf_ty G h' t.
Proof. intros C. apply wf_ty_grows, comp_grows, C. Qed.

(** ** Changing a record node *)

Definition upd_rec (h : heap) (r : nat) (c : recrec) : heap := mkHeap (vs h) (set_nth (rs h) r c) (ws h).
Definition upd_tv (h : heap) (v : nat) (c : tvrec) : heap := mkHeap (set_nth (vs h) v c) (rs h) (ws h).
Definition upd_row (h : heap) (w : nat) (k : rowkind) : heap := mkHeap (vs h) (rs h) (set_nth (ws h) w k).

Lemma wf_ty_len h h' t : length (vs h') = length (vs h) -> length (rs h') = length (rs h) ->
  wf_ty G h t -> wf_ty G h' t.
Proof.
  intros A B. induction t as [v|x y IHx IHy|ts tn IH|r] using ty_ind'; intros W.
  - cbn in *. lia.
  - destruct W. split; auto.
  - apply wf_con in W as [E W]. apply wf_con. split; [exact E|].
    rewrite Forall_forall in *. auto.
  - cbn in *. lia.
Qed.

Lemma rec_step h r c : inv G L h -> (r < length (rs h))%nat ->
  sorted (fields c) -> (forall l t, In (l, t) (fields c) -> wf_ty G h t) ->
  (rho c < length (ws h))%nat -> same_set (L (rho c)) (labels (fields c)) ->
  (forall p, eqs L h p -> rec_sat p r c) -> Comp h (upd_rec h r c).
Proof.
  intros I B S T D K E. pose proof (proj1 I) as W.
  assert (WT : forall t, wf_ty G h t -> wf_ty G (upd_rec h r c) t)
    by (intros t; apply wf_ty_len; cbn; [reflexivity|apply set_nth_len]).
  apply comp_step; [exact I| | |].
  - destruct W. constructor; cbn; eauto.
    + intros r0 c0 l t H J. apply set_nth_inv in H as [(-> & -> & _)|[_ H]]; eauto.
    + intros r0 c0 H. apply set_nth_inv in H as [(-> & -> & _)|[_ H]]; eauto.
    + intros r0 c0 H. apply set_nth_inv in H as [(-> & -> & _)|[_ H]]; eauto.
    + intros r0 c0 H. apply set_nth_inv in H as [(-> & -> & _)|[_ H]]; eauto.
    + intros w l t w' H. destruct (wf_FIELDrow _ _ _ _ H) as (? & ? & ? & ?). auto.
  - repeat split; cbn; auto. apply set_nth_len.
  - intros q Q. pose proof Q as (E1 & E2 & E3). split; [exact E1|]. split; [|exact E3].
    intros r0 c0 H. apply set_nth_inv in H as [(-> & -> & _)|[_ H]]; eauto.
Qed.

(** ** Relinking a bound variable *)

Definition nf (h : heap) (t : ty) : Prop :=
  match t with
  | VARt v => exists c, nth_error (vs h) v = Some c /\ (tvKind c = NoLink \/ tvKind c = Explicit)
  | _ => True
  end.

Lemma nf_comp h h' t : Comp h h' -> nf h t -> nf h' t.
Proof.
  intros (_ & (_ & _ & _ & S & _) & _). destruct t; cbn; auto. intros [c [A B]]. eauto.
Qed.

(** Accessibility after linking [v] to a normal type. *)
Lemma vacc_link h v c t : (forall x, Acc (vlink h) x) -> nf h t -> t <> VARt v ->
  forall x, Acc (vlink (upd_tv h v (mkTv (LinkTo t) (tvEqu c) (tvImp c) (tvOvl c) (tvLevel c)))) x.
Proof.
  intros A N NV.
  assert (K : forall y, t = VARt y ->
    Acc (vlink (upd_tv h v (mkTv (LinkTo t) (tvEqu c) (tvImp c) (tvOvl c) (tvLevel c)))) y).
  { intros y ->. cbn in N. destruct N as [cy [E O]]. constructor. intros z [cz [Ez Kz]]. exfalso.
    cbn in Ez. rewrite set_nth_other in Ez by congruence. rewrite E in Ez. injection Ez as <-.
    destruct O; congruence. }
  intros x. induction (A x) as [x _ IH]. constructor. intros y [cy [E Ky]]. cbn in E.
  apply set_nth_inv in E as [(-> & -> & _)|[_ E]].
  - cbn in Ky. injection Ky as Ky. apply K. exact Ky.
  - apply IH. exists cy. auto.
Qed.

Lemma link_wf h v c t : wf G L h -> (v < length (vs h))%nat -> wf_ty G h t -> nf h t -> t <> VARt v ->
  wf G L (upd_tv h v (mkTv (LinkTo t) (tvEqu c) (tvImp c) (tvOvl c) (tvLevel c))).
Proof.
  intros W B T N NV.
  assert (WT : forall t0, wf_ty G h t0 ->
    wf_ty G (upd_tv h v (mkTv (LinkTo t) (tvEqu c) (tvImp c) (tvOvl c) (tvLevel c))) t0)
    by (intros t0; apply wf_ty_len; cbn; [apply set_nth_len|reflexivity]).
  pose proof (wf_vacc _ _ _ W) as VA.
  destruct W. constructor; cbn; eauto.
  - intros v0 c0 t0 E K. apply set_nth_inv in E as [(-> & -> & _)|[_ E]]; [|eauto].
    cbn in K. injection K as <-. auto.
  - intros w l t0 w' H. destruct (wf_FIELDrow _ _ _ _ H) as (? & ? & ? & ?). auto.
  - apply vacc_link; assumption.
Qed.

Lemma var_step h v c t t0 : inv G L h -> nth_error (vs h) v = Some c -> tvKind c = LinkTo t0 ->
  wf_ty G h t -> nf h t -> (forall p, eqs L h p -> dv p v = den p t) ->
  Comp h (upd_tv h v (mkTv (LinkTo t) (tvEqu c) (tvImp c) (tvOvl c) (tvLevel c))).
Proof.
  intros I E K T N Q. pose proof (nth_lt _ _ _ E) as B.
  assert (NV : t <> VARt v).
  { intros ->. cbn in N. destruct N as [c' [E' O]]. rewrite E in E'. injection E' as <-. destruct O; congruence. }
  apply comp_step; [exact I|apply link_wf; try assumption; exact (proj1 I)| |].
  - repeat split; cbn; auto; [apply set_nth_len| |].
    + intros v0 c0 E0 O. destruct (Nat.eq_dec v0 v) as [->|NE].
      * rewrite E in E0. injection E0 as <-. destruct O; congruence.
      * rewrite set_nth_other by auto. exact E0.
    + intros v0 c0 E0 O. apply set_nth_inv in E0 as [(-> & -> & _)|[_ E0]]; [|exact E0].
      destruct O; discriminate.
  - intros q Eq. pose proof Eq as (E1 & E2 & E3). split; [|split; [exact E2|exact E3]].
    intros v0 c0 E0. apply set_nth_inv in E0 as [(-> & -> & _)|[_ E0]]; [|exact (E1 _ _ E0)].
    unfold eqv. cbn. auto.
Qed.

(** ** normalizeRecType and normType *)

Lemma set_nth_twice {A} (l : list A) i x y : set_nth (set_nth l i x) i y = set_nth l i y.
Proof. revert i; induction l as [|z l IH]; intros [|i]; cbn; auto. rewrite IH. reflexivity. Qed.

Lemma setRt_both r fs w h u h' : (setRtFields r fs;; setRtRho r w) h = Ok (u, h') ->
  h' = upd_rec h r (mkRec fs w) /\ exists c, nth_error (rs h) r = Some c.
Proof.
  intros H. bok H u1 h1 E. unfold setRtFields in E. bok E c h2 E1. apply get_rec_ok in E1 as [-> E1].
  unfold set_rec in E. injection E as _ <-. unfold setRtRho in H.
  bok H c' h3 E2. apply get_rec_ok in E2 as [-> E2]. cbn in E2.
  rewrite set_nth_same in E2 by exact (nth_lt _ _ _ E1). injection E2 as <-. cbn in H.
  unfold set_rec in H. injection H as _ <-. cbn. rewrite set_nth_twice. split; [reflexivity|eauto].
Qed.

Lemma bind_assoc {A B C} (m : U A) (k : A -> U B) (g : B -> U C) h :
  bind m (fun a => bind (k a) g) h = bind (bind m k) g h.
Proof. unfold bind. destruct (m h) as [[a h1]| | |]; reflexivity. Qed.

Lemma normRec_comp n : forall r h u h', normalizeRecType n r h = Ok (u, h') -> inv G L h -> Comp h h'.
Proof.
  induction n as [|n IH]; intros r h u h' H I; [discriminate|]. cbn [normalizeRecType] in H.
  bok H c h1 E1. apply get_rec_ok in E1 as [-> E1]. bok H k h2 E2. apply get_row_ok in E2 as [-> E2].
  pose proof (proj1 I) as W.
  destruct k as [|e i lv|w'|l t w'].
  - injection H as _ <-. apply comp_refl, I.
  - injection H as _ <-. apply comp_refl, I.
  - bok H u1 h1 E. unfold setRtRho in E. bok E c1 h2 E3. apply get_rec_ok in E3 as [-> E3].
    rewrite E1 in E3. injection E3 as <-. unfold set_rec in E. injection E as _ <-.
    destruct (wf_LINKrow _ _ _ W _ _ E2) as [D S].
    assert (C : Comp h (upd_rec h r (mkRec (fields c) w'))).
    { apply rec_step; cbn; [exact I|exact (nth_lt _ _ _ E1)|exact (wf_sorted _ _ _ W _ _ E1)| |exact D| |].
      - intros; eapply (wf_fields _ _ _ W); eauto.
      - intros l. rewrite (S l). apply (wf_taken _ _ _ W _ _ E1).
      - intros p (A & B & C). specialize (B _ _ E1). specialize (C _ _ E2). unfold rec_sat in *. cbn in *.
        rewrite <- C. exact B. }
    eapply comp_trans; [exact C|]. exact (IH _ _ _ _ H (proj1 C)).
  - destruct (insertField (l, t) (fields c)) as [fs|] eqn:EI; [|discriminate].
    rewrite bind_assoc in H. bok H u1 h1 E. apply setRt_both in E as [-> _].
    destruct (wf_FIELDrow _ _ _ W _ _ _ _ E2) as (D & T & NI & S).
    destruct (insertField_spec _ _ _ EI (wf_sorted _ _ _ W _ _ E1)) as [SF PF].
    assert (C : Comp h (upd_rec h r (mkRec fs w'))).
    { apply rec_step; cbn; [exact I|exact (nth_lt _ _ _ E1)|exact SF| |exact D| |].
      - intros l0 t0 J. apply (Permutation_in _ (Permutation_sym PF)) in J as [J|J].
        + injection J as <- <-. exact T.
        + eapply (wf_fields _ _ _ W); eauto.
      - intros l0. rewrite (S l0). pose proof (wf_taken _ _ _ W _ _ E1 l0) as K.
        pose proof (labels_perm _ _ PF) as PL. cbn in PL. split.
        + intros J. apply (Permutation_in _ PL). destruct J as [J|J]; [left; exact J|right; apply K, J].
        + intros J. apply (Permutation_in _ (Permutation_sym PL)) in J.
          destruct J as [J|J]; [left; exact J|right; apply K, J].
      - intros p (A & B & C). specialize (B _ _ E1). specialize (C _ _ E2). unfold rec_sat in *. cbn in *.
        destruct B as [B1 B2]. destruct C as [C1 C2]. split; [exact B1|].
        etransitivity; [|exact B2].
        transitivity (((l, den p t) :: denf p (fields c)) ++ dw p w').
        + apply Permutation_app_tail. unfold denf.
          apply (Permutation_map (fun lt => (fst lt, den p (snd lt)))) in PF. cbn in PF. symmetry. exact PF.
        + cbn. transitivity (denf p (fields c) ++ (l, den p t) :: dw p w'); [apply Permutation_middle|].
          apply Permutation_app_head. exact C2. }
    eapply comp_trans; [exact C|]. exact (IH _ _ _ _ H (proj1 C)).
Qed.

Lemma normRec_nofail n : forall r h x, normalizeRecType n r h <> Fail x.
Proof.
  induction n as [|n IH]; intros r h x H; [discriminate|]. cbn [normalizeRecType] in H.
  apply bind_fail in H as [H|(c & h1 & E & H)]; [exact (get_rec_nf _ _ _ H)|].
  apply bind_fail in H as [H|(k & h2 & E2 & H)]; [exact (get_row_nf _ _ _ H)|].
  destruct k as [|e i lv|w'|l t w']; try discriminate.
  - apply bind_fail in H as [H|(u & h3 & E3 & H)]; [|exact (IH _ _ _ H)].
    unfold setRtRho in H. apply bind_fail in H as [H|(c' & h4 & E4 & H)]; [exact (get_rec_nf _ _ _ H)|discriminate].
  - destruct (insertField (l, t) (fields c)); [|discriminate].
    apply bind_fail in H as [H|(u & h3 & E3 & H)].
    { unfold setRtFields in H. apply bind_fail in H as [H|(c' & h4 & E4 & H)]; [exact (get_rec_nf _ _ _ H)|discriminate]. }
    apply bind_fail in H as [H|(u' & h4 & E4 & H)]; [|exact (IH _ _ _ H)].
    unfold setRtRho in H. apply bind_fail in H as [H|(c' & h5 & E5 & H)]; [exact (get_rec_nf _ _ _ H)|discriminate].
Qed.

Lemma norm_comp n : forall t h t' h', normType n t h = Ok (t', h') -> inv G L h -> wf_ty G h t ->
  Comp h h' /\ wf_ty G h' t' /\ nf h' t' /\ (forall p, eqs L h' p -> den p t = den p t') /\
  (nf h t -> t' = t).
Proof.
  induction n as [|n IH]; intros t h t' h' H I T; [discriminate|]. cbn [normType] in H.
  destruct t as [v|a b|ts tn|r].
  - bok H c h1 E1. apply get_tv_ok in E1 as [-> E1].
    destruct (tvKind c) as [| |t0] eqn:K.
    + injection H as <- <-. split; [apply comp_refl, I|]. repeat split; auto. cbn. eauto.
    + injection H as <- <-. split; [apply comp_refl, I|]. repeat split; auto. cbn. eauto.
    + bok H t1 h1 E. destruct (IH _ _ _ _ E I (wf_link _ _ _ (proj1 I) _ _ _ E1 K)) as (C & T1 & N1 & D1 & _).
      bok H u h2 E2. injection H as <- <-. unfold setTvKind in E2. bok E2 c1 h3 E3.
      apply get_tv_ok in E3 as [-> E3]. unfold set_tv in E2. injection E2 as _ <-.
      assert (K1 : exists t2, tvKind c1 = LinkTo t2).
      { destruct (tvKind c1) as [| |t2] eqn:K1; [| |eauto]; exfalso;
          destruct C as (_ & (_ & _ & _ & _ & S) & _);
          pose proof (S _ _ E3) as X; rewrite E1 in X; rewrite K1 in X;
          [specialize (X (or_intror eq_refl))|specialize (X (or_introl eq_refl))];
          injection X as ->; congruence. }
      destruct K1 as [t2 K1].
      assert (DV : forall p, eqs L h1 p -> dv p v = den p t1).
      { intros p Q. rewrite <- (D1 p Q). apply C in Q. destruct Q as (Q & _). specialize (Q _ _ E1).
        unfold eqv in Q. rewrite K in Q. exact Q. }
      pose proof (var_step h1 v c1 t1 t2 (proj1 C) E3 K1 T1 N1 DV) as C2.
      fold (upd_tv h1 v (mkTv (LinkTo t1) (tvEqu c1) (tvImp c1) (tvOvl c1) (tvLevel c1))).
      split; [exact (comp_trans _ _ _ C C2)|]. split; [exact (comp_wf_ty _ _ _ C2 T1)|].
      split; [exact (nf_comp _ _ _ C2 N1)|]. split.
      * intros p Q. cbn [den]. apply DV. apply C2, Q.
      * intros (c' & E' & O). rewrite E1 in E'. injection E' as <-. destruct O; congruence.
  - injection H as <- <-. split; [apply comp_refl, I|]. repeat split; auto; exact (proj1 T) || exact (proj2 T).
  - injection H as <- <-. split; [apply comp_refl, I|]. split; [exact T|]. repeat split; auto.
  - bok H u h1 E. injection H as <- <-. pose proof (normRec_comp _ _ _ _ _ E I) as C.
    split; [exact C|]. split; [exact (comp_wf_ty _ _ _ C T)|]. repeat split; auto.
Qed.

Lemma norm_nofail n : forall t h x, normType n t h <> Fail x.
Proof.
  induction n as [|n IH]; intros t h x H; [discriminate|]. cbn [normType] in H.
  destruct t as [v|a b|ts tn|r]; try discriminate.
  - apply bind_fail in H as [H|(c & h1 & E & H)]; [exact (get_tv_nf _ _ _ H)|].
    destruct (tvKind c); try discriminate.
    apply bind_fail in H as [H|(t' & h2 & E2 & H)]; [exact (IH _ _ _ H)|].
    apply bind_fail in H as [H|(u & h3 & E3 & H)]; [|discriminate].
    unfold setTvKind in H. apply bind_fail in H as [H|(c' & h4 & E4 & H)]; [exact (get_tv_nf _ _ _ H)|discriminate].
  - apply bind_fail in H as [H|(u & h1 & E & H)]; [exact (normRec_nofail _ _ _ _ H)|discriminate].
Qed.
End N.
