(** * The free variables found by freeVarsType *)

From Coq Require Import ZArith List Bool Permutation Sorted Lia Arith.
From Verif Require Import Unify_Model Unify_Spec Unify_Base Unify_Sol Unify_Norm.
Import ListNotations.
Open Scope Z_scope.

Definition fnsOf (a : fvset) : list nat := fst (fst a).
Definition fvsOf (a : fvset) : list nat := snd (fst a).
Definition frvsOf (a : fvset) : list nat := snd a.

(** All that the accumulated names and variables stand for is good. *)
Definition accOK (pc : nat -> Prop) (pr : bool -> Z -> Prop) (p : val) (a : fvset) : Prop :=
  (forall n, In n (fnsOf a) -> pc n) /\
  (forall v, In v (fvsOf a) -> alln pc pr (dv p v)) /\
  (forall w, In w (frvsOf a) -> Forall (fun f => alln pc pr (snd f)) (dw p w)).

Definition agreeOn (a : fvset) (p q : val) : Prop :=
  (forall v, In v (fvsOf a) -> dv p v = dv q v) /\
  (forall w, In w (frvsOf a) -> dw p w = dw q w).

Definition sub (a b : fvset) : Prop :=
  incl (fnsOf a) (fnsOf b) /\ incl (fvsOf a) (fvsOf b) /\ incl (frvsOf a) (frvsOf b).

Lemma sub_refl a : sub a a.
Proof. repeat split; apply incl_refl. Qed.
Lemma sub_trans a b c : sub a b -> sub b c -> sub a c.
Proof. intros (?&?&?) (?&?&?). repeat split; eapply incl_tran; eauto. Qed.

Lemma agreeOn_sub a b p q : sub a b -> agreeOn b p q -> agreeOn a p q.
Proof. intros (_ & A & B) [C D]. split; auto. Qed.

Definition opened (h : heap) (a : fvset) : Prop :=
  (forall v, In v (fvsOf a) -> exists c, nth_error (vs h) v = Some c /\ (tvKind c = NoLink \/ tvKind c = Explicit)) /\
  (forall w, In w (frvsOf a) -> exists e i lv, nth_error (ws h) w = Some (VARrow e i lv)).

Section F.
Variables (G : nat -> tninfo) (L : nat -> list lab).

Record FV (h : heap) (a b : fvset) (A : val -> (nat -> Prop) -> (bool -> Z -> Prop) -> Prop)
    (D : val -> val -> Prop) (Zs : val -> nat) : Prop := mkFV
  { fv_sub : sub a b;
    fv_open : opened h a -> opened h b;
    fv_all : forall p, eqs L h p -> forall pc pr, accOK pc pr p b <-> accOK pc pr p a /\ A p pc pr;
    fv_det : forall p q, eqs L h p -> eqs L h q -> agreeOn b p q -> D p q;
    fv_size : forall v, In v (fvsOf b) -> In v (fvsOf a) \/ forall p, eqs L h p -> (tsize (dv p v) <= Zs p)%nat }.

Lemma opened_comp h h' a : Comp G L h h' -> opened h a <-> opened h' a.
Proof.
  intros (_ & (_ & _ & E & S & S') & _). unfold opened. rewrite E. split; intros [A B]; split; auto.
  - intros v I. destruct (A v I) as [c [X Y]]. eauto.
  - intros v I. destruct (A v I) as [c [X Y]]. eauto.
Qed.

Lemma fv_comp h h' a b A D Zs : Comp G L h h' -> FV h' a b A D Zs -> FV h a b A D Zs.
Proof.
  intros C [F1 F2 F3 F4 F5]. constructor.
  - exact F1.
  - intros O. apply (opened_comp _ _ _ C). apply F2. apply (opened_comp _ _ _ C). exact O.
  - intros p Q. apply F3. apply C, Q.
  - intros p q Q Q'. apply F4; apply C; assumption.
  - intros v I. destruct (F5 v I) as [X|X]; [left; exact X|right]. intros p Q. apply X, C, Q.
Qed.

Lemma fv_seq h a b c A1 D1 Z1 A2 D2 Z2 (A : val -> (nat -> Prop) -> (bool -> Z -> Prop) -> Prop) (D : val -> val -> Prop) Zs :
  FV h a b A1 D1 Z1 -> FV h b c A2 D2 Z2 ->
  (forall p, eqs L h p -> forall pc pr, A p pc pr <-> A1 p pc pr /\ A2 p pc pr) ->
  (forall p q, eqs L h p -> eqs L h q -> D1 p q -> D2 p q -> D p q) ->
  (forall p, eqs L h p -> (Z1 p <= Zs p /\ Z2 p <= Zs p)%nat) ->
  FV h a c A D Zs.
Proof.
  intros [F1 F2 F3 F4 F5] [E1 E2 E3 E4 E5] HA HD HZ. constructor.
  - eapply sub_trans; eauto.
  - auto.
  - intros p Q pc pr. rewrite (E3 p Q), (F3 p Q), (HA p Q). tauto.
  - intros p q Q Q' O. apply HD; auto. apply F4; auto. eapply agreeOn_sub; eauto.
  - intros v I. destruct (E5 v I) as [J|J].
    + destruct (F5 v J) as [K|K]; [auto|]. right. intros p Q. specialize (K p Q). pose proof (HZ p Q). lia.
    + right. intros p Q. specialize (J p Q). pose proof (HZ p Q). lia.
Qed.

Lemma fv_conv h a b A D Zs (A' : val -> (nat -> Prop) -> (bool -> Z -> Prop) -> Prop) (D' : val -> val -> Prop) Zs' :
  FV h a b A D Zs ->
  (forall p, eqs L h p -> forall pc pr, A p pc pr <-> A' p pc pr) ->
  (forall p q, eqs L h p -> eqs L h q -> D p q -> D' p q) ->
  (forall p, eqs L h p -> (Zs p <= Zs' p)%nat) ->
  FV h a b A' D' Zs'.
Proof.
  intros [F1 F2 F3 F4 F5] HA HD HZ. constructor; auto.
  - intros p Q pc pr. rewrite (F3 p Q), (HA p Q). reflexivity.
  - intros v I. destruct (F5 v I) as [K|K]; [auto|right]. intros p Q. specialize (K p Q). pose proof (HZ p Q). lia.
Qed.

Lemma fv_nil h a : FV h a a (fun _ _ _ => True) (fun _ _ => True) (fun _ => O).
Proof. constructor; auto using sub_refl. intros; tauto. Qed.

Lemma member_in x l : member x l = true -> In x l.
Proof. intros H. apply existsb_exists in H as [y [I E]]. apply Nat.eqb_eq in E. congruence. Qed.

Definition zt (p : val) (t : ty) : nat :=
  match t with VARt _ => tsize (den p t) | _ => pred (tsize (den p t)) end.

Lemma zt_le p t : (zt p t <= tsize (den p t))%nat.
Proof. destruct t; cbn [zt]; lia. Qed.

Definition FVt h a b t :=
  FV h a b (fun p pc pr => alln pc pr (den p t)) (fun p q => den p t = den q t) (fun p => zt p t).
Definition FVts h a b ts :=
  FV h a b (fun p pc pr => Forall (alln pc pr) (map (den p) ts))
     (fun p q => map (den p) ts = map (den q) ts) (fun p => lsize (map (den p) ts)).
Definition FVw h a b w :=
  FV h a b (fun p pc pr => Forall (fun f => alln pc pr (snd f)) (dw p w))
     (fun p q => dw p w = dw q w) (fun p => rsize (dw p w)).

Lemma foldTs_comp (f : fvset -> ty -> U fvset)
  (F : forall t h a b h', f a t h = Ok (b, h') -> inv G L h -> wf_ty G h t -> Comp G L h h' /\ FVt h a b t) :
  forall ts h a b h', foldTs f a ts h = Ok (b, h') -> inv G L h -> Forall (wf_ty G h) ts ->
  Comp G L h h' /\ FVts h a b ts.
Proof.
  induction ts as [|t ts IH]; intros h a b h' H I W; cbn [foldTs] in H.
  - injection H as <- <-. split; [apply comp_refl, I|]. unfold FVts. eapply fv_conv; [apply fv_nil|..]; cbn; auto.
    intros; split; auto.
  - bok H a1 h1 E. inversion W; subst. destruct (F _ _ _ _ _ E I H2) as [C1 V1].
    destruct (IH _ _ _ _ H (proj1 C1)) as [C2 V2].
    { eapply Forall_impl; [|exact H3]. intros; eapply comp_wf_ty; eauto. }
    split; [eapply comp_trans; eauto|]. apply (fv_comp _ _ _ _ _ _ _ C1) in V2.
    eapply fv_seq; [exact V1|exact V2|..].
    + intros p Q pc pr. cbn. rewrite Forall_cons_iff. reflexivity.
    + intros p q _ _ D1 D2. cbn. congruence.
    + intros p Q. cbn. pose proof (zt_le p t). lia.
Qed.

Lemma freeVars_comp n :
  (forall t h a b h', freeVarsType n a t h = Ok (b, h') -> inv G L h -> wf_ty G h t ->
     Comp G L h h' /\ FVt h a b t) /\
  (forall w h a b h', freeVarsRowType n a w h = Ok (b, h') -> inv G L h -> (w < length (ws h))%nat ->
     Comp G L h h' /\ FVw h a b w).
Proof.
  induction n as [|n [IHt IHw]]; [split; intros; discriminate|]. split.
  - intros t h a b h' H I T. cbn [freeVarsType] in H. bok H t1 h1 E1.
    destruct (norm_comp G L _ _ _ _ _ E1 I T) as (C1 & T1 & N1 & D1 & NN).
    assert (X : Comp G L h1 h' /\ FVt h1 a b t1).
    { pose proof (proj1 C1) as I1. clear E1 D1 NN.
      destruct t1 as [v|x y|ts tn|r].
      - destruct N1 as [c [EC O]]. destruct a as [[fns fvs] frvs].
        destruct (member v fvs) eqn:M.
        + injection H as <- <-. split; [apply comp_refl, I1|]. apply member_in in M.
          constructor; auto using sub_refl.
          * intros p Q pc pr. cbn. split; [|tauto]. intros B. split; [exact B|]. apply B. exact M.
          * intros p q Q Q' [A _]. cbn. apply A, M.
        + injection H as <- <-. split; [apply comp_refl, I1|]. constructor.
          * repeat split; cbn; auto using incl_refl, incl_tl.
          * intros [A B]. split; [|exact B]. intros v0 [<-|J]; [eauto|exact (A v0 J)].
          * intros p Q pc pr. cbn. unfold accOK, fnsOf, fvsOf, frvsOf. cbn. split.
            -- intros (A & B & C). repeat split; auto.
            -- intros [(A & B & C) D]. repeat split; auto. intros v0 [<-|J]; auto.
          * intros p q Q Q' [A _]. cbn. apply A. left. reflexivity.
          * intros v0 [<-|J]; [right; intros; cbn; lia|left; exact J].
      - bok H a1 h2 E2. destruct T1 as [Tx Ty].
        destruct (IHt _ _ _ _ _ E2 I1 Tx) as [C2 V2].
        destruct (IHt _ _ _ _ _ H (proj1 C2) (comp_wf_ty _ _ _ _ _ C2 Ty)) as [C3 V3].
        split; [eapply comp_trans; eauto|]. apply (fv_comp _ _ _ _ _ _ _ C2) in V3.
        eapply fv_seq; [exact V2|exact V3|..].
        + intros p Q pc pr. reflexivity.
        + intros p q _ _ A B. cbn. congruence.
        + intros p Q. cbn [zt den tsize]. pose proof (zt_le p x). pose proof (zt_le p y). lia.
      - bok H a1 h2 E2. destruct a1 as [[fns fvs] frvs]. apply wf_con in T1 as [AR TS].
        destruct (foldTs_comp _ (fun t h a b h' => IHt t h a b h') _ _ _ _ _ E2 I1 TS) as [C2 V2].
        assert (Y : Comp G L h2 h' /\ FV h2 (fns, fvs, frvs) b (fun _ pc _ => pc tn) (fun _ _ => True) (fun _ => O)).
        { destruct (member tn fns) eqn:M; injection H as <- <-; (split; [apply comp_refl, (proj1 C2)|]).
          - apply member_in in M. constructor; auto using sub_refl.
            intros p Q pc pr. split; [|tauto]. intros B. split; [exact B|]. apply B. exact M.
          - constructor; auto.
            + repeat split; cbn; auto using incl_refl, incl_tl.
            + intros p Q pc pr. unfold accOK, fnsOf, fvsOf, frvsOf. cbn. split.
              * intros (A & B & C). repeat split; auto.
              * intros [(A & B & C) D]. repeat split; auto. intros v0 [<-|J]; auto. }
        destruct Y as [C3 V3]. split; [eapply comp_trans; eauto|]. apply (fv_comp _ _ _ _ _ _ _ C2) in V3.
        eapply fv_seq; [exact V2|exact V3|..].
        + intros p Q pc pr. cbn [den]. rewrite alln_con. tauto.
        + intros p q _ _ A _. cbn. congruence.
        + intros p Q. cbn [zt den]. rewrite tsize_con. cbn. lia.
      - bok H c h2 E2. apply get_rec_ok in E2 as [-> E2]. bok H a1 h2 E3.
        destruct (foldTs_comp _ (fun t h a b h' => IHt t h a b h') _ _ _ _ _ E3 I1) as [C2 V2].
        { apply Forall_forall. intros t0 J. apply in_map_iff in J as [[l t2] [<- J]].
          exact (wf_fields _ _ _ (proj1 I1) _ _ _ _ E2 J). }
        assert (B : (rho c < length (ws h2))%nat).
        { destruct C2 as (_ & (_ & _ & -> & _) & _). exact (wf_rho _ _ _ (proj1 I1) _ _ E2). }
        destruct (IHw _ _ _ _ _ H (proj1 C2) B) as [C3 V3].
        split; [eapply comp_trans; eauto|]. apply (fv_comp _ _ _ _ _ _ _ C2) in V3.
        assert (DR : forall p, eqs L h1 p -> rec_sat p r c) by (intros p (_ & Q & _); exact (Q _ _ E2)).
        assert (DM : forall p, map snd (denf p (fields c)) = map (den p) (map snd (fields c))).
        { intros p. unfold denf. rewrite !map_map. reflexivity. }
        eapply fv_seq; [exact V2|exact V3|..].
        + intros p Q pc pr. cbn [den]. rewrite alln_rec. destruct (DR p Q) as [_ P].
          split.
          * intros F. apply (Forall_perm _ _ _ (Permutation_sym P)) in F. apply Forall_app in F as [F1 F2].
            split; [|exact F2]. rewrite <- DM. rewrite Forall_map. exact F1.
          * intros [F1 F2]. apply (Forall_perm _ _ _ P). apply Forall_app. split; [|exact F2].
            rewrite <- DM in F1. rewrite Forall_map in F1. exact F1.
        + intros p q Q Q' A B0. cbn. f_equal. apply (Join_fun (denf p (fields c)) (dw p (rho c))); [exact (DR p Q)|].
          pose proof (DR q Q') as J. unfold rec_sat in J. rewrite B0.
          replace (denf p (fields c)) with (denf q (fields c)); [exact J|].
          unfold denf. cbn beta in A; rewrite !map_map in A. clear -A.
          induction (fields c) as [|[l t] fs IH]; cbn in *; [reflexivity|]. injection A as A1 A2.
          rewrite A1, IH; auto.
        + intros p Q. cbn [zt den]. rewrite tsize_rec. cbn [pred]. rewrite (Join_rsize _ _ _ (DR p Q)).
          assert ((lsize (map (den p) (map snd (fields c))) <= rsize (denf p (fields c)))%nat).
          { rewrite <- DM. generalize (denf p (fields c)). intros f. induction f as [|[l0 t0] f IH]; cbn; lia. }
          lia. }
    destruct X as [C2 V2]. split; [eapply comp_trans; eauto|]. apply (fv_comp _ _ _ _ _ _ _ C1) in V2.
    eapply fv_conv; [exact V2|..].
    + intros p Q pc pr. rewrite (D1 p); [reflexivity|]. apply C1, Q.
    + intros p q Q Q' A. rewrite (D1 p), (D1 q); [exact A|apply C1..]; assumption.
    + intros p Q. assert (Q1 : eqs L h1 p) by (apply C1, Q). destruct t as [v|x y|ts tn|r].
      * cbn [zt]. rewrite (D1 p Q1). apply zt_le.
      * rewrite (NN Logic.I). lia.
      * rewrite (NN Logic.I). lia.
      * rewrite (NN Logic.I). lia.
  - intros w h a b h' H I B. cbn [freeVarsRowType] in H. bok H k h1 E1. apply get_row_ok in E1 as [-> E1].
    destruct k as [|e i lv|w'|l t w'].
    + injection H as <- <-. split; [apply comp_refl, I|].
      eapply fv_conv; [apply fv_nil|..]; cbn.
      * intros p (_ & _ & Q) pc pr. specialize (Q _ _ E1). cbn in Q. rewrite Q. split; auto.
      * intros p q (_ & _ & Q) (_ & _ & Q') _. specialize (Q _ _ E1). specialize (Q' _ _ E1). cbn in *. congruence.
      * intros; lia.
    + destruct a as [[fns fvs] frvs]. destruct (member w frvs) eqn:M.
      * injection H as <- <-. split; [apply comp_refl, I|]. apply member_in in M.
        constructor; auto using sub_refl.
        -- intros p Q pc pr. cbn. split; [|tauto]. intros X. split; [exact X|]. apply X. exact M.
        -- intros p q Q Q' [_ A]. apply A, M.
      * injection H as <- <-. split; [apply comp_refl, I|]. constructor; auto.
        -- repeat split; cbn; auto using incl_refl, incl_tl.
        -- intros [A A']. split; [exact A|]. intros w0 [<-|J]; [eauto|exact (A' w0 J)].
        -- intros p Q pc pr. unfold accOK, fnsOf, fvsOf, frvsOf. cbn. split.
           ++ intros (A & A' & C). repeat split; auto.
           ++ intros [(A & A' & C) D]. repeat split; auto. intros v0 [<-|J]; auto.
        -- intros p q Q Q' [_ A]. apply A. left. reflexivity.
    + discriminate.
    + bok H a1 h2 E2. destruct (wf_FIELDrow _ _ _ (proj1 I) _ _ _ _ E1) as (B' & T & _ & _).
      destruct (IHt _ _ _ _ _ E2 I T) as [C2 V2].
      assert (B2 : (w' < length (ws h2))%nat).
      { destruct C2 as (_ & (_ & _ & -> & _) & _). exact B'. }
      destruct (IHw _ _ _ _ _ H (proj1 C2) B2) as [C3 V3].
      split; [eapply comp_trans; eauto|]. apply (fv_comp _ _ _ _ _ _ _ C2) in V3.
      assert (DW : forall p, eqs L h p -> Join [(l, den p t)] (dw p w') (dw p w))
        by (intros p (_ & _ & Q); exact (Q _ _ E1)).
      eapply fv_seq; [exact V2|exact V3|..].
      * intros p Q pc pr. destruct (DW p Q) as [_ P]. split.
        -- intros F. apply (Forall_perm _ _ _ (Permutation_sym P)) in F. cbn in F.
           apply Forall_cons_iff in F. exact F.
        -- intros F. apply (Forall_perm _ _ _ P). cbn. apply Forall_cons_iff. exact F.
      * intros p q Q Q' A A'. apply (Join_fun [(l, den p t)] (dw p w')); [exact (DW p Q)|].
        rewrite A, A'. exact (DW q Q').
      * intros p Q. rewrite (Join_rsize _ _ _ (DW p Q)). cbn. pose proof (zt_le p t). lia.
Qed.

Lemma foldTs_nofail (f : fvset -> ty -> U fvset) (F : forall a t h x, f a t h <> Fail x) :
  forall ts a h x, foldTs f a ts h <> Fail x.
Proof.
  induction ts as [|t ts IH]; intros a h x H; cbn in H; [discriminate|].
  apply bind_fail in H as [H|(a1 & h1 & E & H)]; [exact (F _ _ _ _ H)|exact (IH _ _ _ H)].
Qed.

Lemma freeVars_nofail n :
  (forall a t h x, freeVarsType n a t h <> Fail x) /\ (forall a w h x, freeVarsRowType n a w h <> Fail x).
Proof.
  induction n as [|n [IHt IHw]]; [split; intros; discriminate|]. split.
  - intros a t h x H. cbn [freeVarsType] in H.
    apply bind_fail in H as [H|(t1 & h1 & E & H)]; [exact (norm_nofail _ _ _ _ H)|].
    destruct t1 as [v|y z|ts tn|r].
    + destruct a as [[fns fvs] frvs]. destruct (member v fvs); discriminate.
    + apply bind_fail in H as [H|(a1 & h2 & E2 & H)]; [exact (IHt _ _ _ _ H)|exact (IHt _ _ _ _ H)].
    + apply bind_fail in H as [H|(a1 & h2 & E2 & H)]; [exact (foldTs_nofail _ IHt _ _ _ _ H)|].
      destruct a1 as [[fns fvs] frvs]. destruct (member tn fns); discriminate.
    + apply bind_fail in H as [H|(c & h2 & E2 & H)]; [exact (get_rec_nf _ _ _ H)|].
      apply bind_fail in H as [H|(a1 & h3 & E3 & H)]; [exact (foldTs_nofail _ IHt _ _ _ _ H)|exact (IHw _ _ _ _ H)].
  - intros a w h x H. cbn [freeVarsRowType] in H.
    apply bind_fail in H as [H|(k & h2 & E2 & H)]; [exact (get_row_nf _ _ _ H)|].
    destruct k as [|e i lv|w'|l t w']; try discriminate.
    + destruct a as [[fns fvs] frvs]. destruct (member w frvs); discriminate.
    + apply bind_fail in H as [H|(a1 & h3 & E3 & H)]; [exact (IHt _ _ _ _ H)|exact (IHw _ _ _ _ H)].
Qed.
End F.
