(** Proofs for C52: specialization *)
From Coq Require Import ZArith List Bool Lia.
From Verif Require Import Unify_Model Unify_Base Unify_Norm Poly_Model Poly_Spec.
Import ListNotations.
Open Scope Z_scope.

Scheme means_mut := Induction for means Sort Prop with means_all_mut := Induction for means_all Sort Prop.
Combined Scheme means_both from means_mut, means_all_mut.

(** ** The meaning of a type is determined *)
Lemma row_end_det h w a b : row_end h w a -> row_end h w b -> a = b.
Proof. unfold row_end. destruct (nth_error (ws h) w) as [[| | |]|]; intros; try tauto; congruence. Qed.
Lemma means_det_both h : (forall t o (M : means h t o), forall o', means h t o' -> o = o') /\
  (forall ts os (M : means_all h ts os), forall os', means_all h ts os' -> os = os').
Proof.
  apply means_both.
  - intros v c E U o' M. inversion M as [v' c' E' U'|v' c' t' o0 E' K' M'| | |]; subst; [reflexivity|]. rewrite E in E'. injection E' as <-. now destruct (U _ K').
  - intros v c t o E K M IH o' M'. inversion M' as [v' c' E' U'|v' c' t' o0 E' K' M''| | |]; subst; rewrite E in E'; injection E' as <-; [now destruct (U' _ K)|].
    apply IH. congruence.
  - intros a b oa ob Ma IHa Mb IHb o' M'. inversion M'; subst. f_equal; auto.
  - intros ts tn os Ms IH o' M'. inversion M'; subst. f_equal; auto.
  - intros r c os tl E Ms IH R o' M'. inversion M' as [| | | |r' c' os' tl' E' Ms' R']; subst. rewrite E in E'. injection E' as <-.
    rewrite (IH _ Ms'), (row_end_det _ _ _ _ R R'). reflexivity.
  - intros os' M'. now inversion M'.
  - intros t ts o os M IH Ms IHs os' M'. inversion M'; subst. f_equal; auto.
Qed.
Lemma means_det h t o o' : means h t o -> means h t o' -> o = o'.
Proof. intros M. apply (proj1 (means_det_both h) _ _ M). Qed.

(** ** New cells do not change the meaning of a type *)
Definition extends (h h' : heap) : Prop :=
  (forall v c, nth_error (vs h) v = Some c -> nth_error (vs h') v = Some c) /\
  (forall r c, nth_error (rs h) r = Some c -> nth_error (rs h') r = Some c) /\ ws h' = ws h.
Lemma means_ext_both h h' : extends h h' -> (forall t o (M : means h t o), means h' t o) /\
  (forall ts os (M : means_all h ts os), means_all h' ts os).
Proof.
  intros (A & B & C). apply means_both.
  - intros v c E U. econstructor; eauto.
  - intros v c t o E K M IH. eapply M_link; eauto.
  - intros. now constructor.
  - intros. now constructor.
  - intros r c os tl E Ms IH R. econstructor; eauto. unfold row_end in *. now rewrite C.
  - constructor.
  - intros. now constructor.
Qed.
Lemma means_ext h h' t o : extends h h' -> means h t o -> means h' t o.
Proof. intros H. apply (proj1 (means_ext_both _ _ H)). Qed.
Lemma means_all_ext h h' ts os : extends h h' -> means_all h ts os -> means_all h' ts os.
Proof. intros H. apply (proj2 (means_ext_both _ _ H)). Qed.
Lemma extends_refl h : extends h h.
Proof. unfold extends. auto. Qed.
Lemma extends_trans a b c : extends a b -> extends b c -> extends a c.
Proof. intros (A & B & C) (A' & B' & C'). split; [auto|]. split; [auto|congruence]. Qed.

Definition addrecs (h : heap) (x : list recrec) : heap := mkHeap (vs h) (rs h ++ x) (ws h).
Definition addvars (h : heap) (x : list tvrec) : heap := mkHeap (vs h ++ x) (rs h) (ws h).
Lemma nth_app_some {A} (l x : list A) i c : nth_error l i = Some c -> nth_error (l ++ x) i = Some c.
Proof. intros E. rewrite nth_error_app1; [exact E|]. apply nth_error_Some. congruence. Qed.
Lemma addrecs_ext h x : extends h (addrecs h x).
Proof. split; [auto|]. split; [|reflexivity]. intros. cbn. now apply nth_app_some. Qed.
Lemma addvars_ext h x : extends h (addvars h x).
Proof. split; [|split; [auto|reflexivity]]. intros. cbn. now apply nth_app_some. Qed.
Lemma addrecs_add h x y : addrecs (addrecs h x) y = addrecs h (x ++ y).
Proof. unfold addrecs. cbn. now rewrite app_assoc. Qed.
Lemma addrecs_nil h : addrecs h [] = h.
Proof. destruct h. unfold addrecs. cbn. now rewrite app_nil_r. Qed.

(** ** copyType renames *)
Section Copy.
  Variable s : nat -> nat.
  (** every variable that has a copy means what the copy should *)
  Definition copied (h : heap) (bvs : env) : Prop :=
    (forall v t, lookup v bvs = Some t -> exists o, means h (VARt v) o /\ means h t (rename s o)) /\
    (forall v, s v <> v -> lookup v bvs <> None).
  Lemma copied_ext h h' bvs : extends h h' -> copied h bvs -> copied h' bvs.
  Proof. intros X [A B]. split; [|exact B]. intros v t E. destruct (A _ _ E) as (o & M & M'). exists o. split; eapply means_ext; eauto. Qed.
  Lemma copied_cons h bvs v o t : copied h bvs -> means h (VARt v) o -> means h t (rename s o) -> copied h ((v, t) :: bvs).
  Proof.
    intros [A B] M M'. split.
    - intros u t' E. cbn [lookup] in E. destruct (Nat.eqb_spec u v) as [->|N]; [injection E as <-; eauto|eauto].
    - intros u N. cbn [lookup]. destruct (Nat.eqb u v); [discriminate|auto].
  Qed.

  Definition copies (h : heap) (t : ty) (o : otree) : Prop :=
    exists N, forall n x bvs, (N <= n)%nat -> copied (addrecs h x) bvs ->
    exists y bvs' sh ct, copyType n bvs t (addrecs h x) = Ok ((bvs', sh, ct), addrecs h (x ++ y)) /\
      copied (addrecs h (x ++ y)) bvs' /\ (sh = true -> ct = t) /\ means (addrecs h (x ++ y)) ct (rename s o).
  Definition copies_all (h : heap) (ts : list ty) (os : list otree) : Prop :=
    exists N, forall n x bvs, (N <= n)%nat -> copied (addrecs h x) bvs ->
    (exists y bvs' sh cts, copyTypeList (copyType n) bvs ts (addrecs h x) = Ok ((bvs', sh, cts), addrecs h (x ++ y)) /\
      copied (addrecs h (x ++ y)) bvs' /\ (sh = true -> cts = ts) /\ means_all (addrecs h (x ++ y)) cts (map (rename s) os)) /\
    (forall fs, map snd fs = ts ->
     exists y bvs' sh cfs, copyFields (copyType n) bvs fs (addrecs h x) = Ok ((bvs', sh, cfs), addrecs h (x ++ y)) /\
      copied (addrecs h (x ++ y)) bvs' /\ (sh = true -> cfs = fs) /\ map fst cfs = map fst fs /\
      means_all (addrecs h (x ++ y)) (map snd cfs) (map (rename s) os)).

  Lemma addrecs_mono h x y : extends (addrecs h x) (addrecs h (x ++ y)).
  Proof. rewrite <- addrecs_add. apply addrecs_ext. Qed.

  Lemma bind_eq {A B} (m : U A) (k : A -> U B) h a h' : m h = Ok (a, h') -> bind m k h = k a h'.
  Proof. unfold bind. now intros ->. Qed.

  Lemma copy_both h : (forall t o (M : means h t o), copies h t o) /\ (forall ts os (M : means_all h ts os), copies_all h ts os).
  Proof.
    apply means_both.
    - intros v c E U. exists 1%nat. intros n x bvs Hn HC. destruct n as [|n]; [lia|]. exists [], bvs. rewrite app_nil_r. cbn [copyType].
      destruct (lookup v bvs) as [ct|] eqn:EL.
      + eexists _, ct. split; [reflexivity|]. split; [exact HC|]. destruct (proj1 HC _ _ EL) as (o & M & M'). split.
        * destruct ct; try discriminate. intros H. apply Nat.eqb_eq in H. now subst.
        * assert (o = OVar v) as ->; [|exact M']. eapply means_det; [exact M|]. eapply means_ext; [apply addrecs_ext|]. econstructor; eauto.
      + exists true, (VARt v). assert (SV : s v = v) by (destruct (Nat.eq_dec (s v) v) as [|N]; [auto|]; now destruct (proj2 HC v N)).
        unfold bind, get_tv. cbn [vs addrecs]. rewrite E. split; [|split; [exact HC|split; [auto|]]].
        * destruct (tvKind c) as [| |t] eqn:K; [reflexivity|reflexivity|now destruct (U t)].
        * cbn [rename]. rewrite SV. eapply M_unbound; eauto.
    - intros v c t o E K M (N & IH). exists (S N). intros n x bvs Hn HC. destruct n as [|n]; [lia|]. cbn [copyType].
      assert (MV : means (addrecs h x) (VARt v) o) by (eapply means_ext; [apply addrecs_ext|]; eapply M_link; eauto).
      destruct (lookup v bvs) as [ct|] eqn:EL.
      + exists [], bvs. rewrite app_nil_r. eexists _, ct. split; [reflexivity|]. split; [exact HC|]. destruct (proj1 HC _ _ EL) as (o' & M1 & M2). split.
        * destruct ct; try discriminate. intros H. apply Nat.eqb_eq in H. now subst.
        * now rewrite (means_det _ _ _ _ MV M1).
      + destruct (IH n x bvs ltac:(lia) HC) as (y & bvs' & sh & ct & E1 & C1 & S1 & M1).
        assert (EG : get_tv v (addrecs h x) = Ok (c, addrecs h x)) by (unfold get_tv; cbn [vs addrecs]; now rewrite E).
        assert (MV' : means (addrecs h (x ++ y)) (VARt v) o) by (eapply means_ext; [apply addrecs_mono|exact MV]).
        rewrite (bind_eq _ _ _ _ _ EG). rewrite K. rewrite (bind_eq _ _ _ _ _ E1). cbn beta iota. exists y. destruct sh.
        * rewrite (S1 eq_refl) in M1.
          assert (MM : means (addrecs h (x ++ y)) (VARt v) (rename s o)) by (eapply M_link; eauto).
          eexists _, _, _. split; [reflexivity|]. split; [|auto]. now apply (copied_cons _ _ _ o).
        * eexists _, _, _. split; [reflexivity|]. split; [|split; [discriminate|exact M1]]. now apply (copied_cons _ _ _ o).
    - intros a b oa ob Ma (N1 & IHa) Mb (N2 & IHb). exists (S (N1 + N2)). intros n x bvs Hn HC. destruct n as [|n]; [lia|]. cbn [copyType].
      destruct (IHa n x bvs ltac:(lia) HC) as (y1 & bvs1 & s1 & c1 & E1 & C1 & S1 & M1).
      destruct (IHb n (x ++ y1) bvs1 ltac:(lia) C1) as (y2 & bvs2 & s2 & c2 & E2 & C2 & S2 & M2). rewrite <- app_assoc in *.
      rewrite (bind_eq _ _ _ _ _ E1). cbn beta iota. rewrite (bind_eq _ _ _ _ _ E2). cbn beta iota. exists (y1 ++ y2), bvs2.
      assert (M1' : means (addrecs h (x ++ y1 ++ y2)) c1 (rename s oa)) by (eapply means_ext; [|exact M1]; rewrite app_assoc; apply addrecs_mono).
      destruct (s1 && s2) eqn:ES.
      + apply andb_prop in ES as [-> ->]. rewrite (S1 eq_refl) in M1'. rewrite (S2 eq_refl) in M2. eexists _, _. split; [reflexivity|]. split; [auto|]. split; [auto|]. now constructor.
      + eexists _, _. split; [reflexivity|]. split; [auto|]. split; [discriminate|]. now constructor.
    - intros ts tn os Ms (N & IH). exists (S N). intros n x bvs Hn HC. destruct n as [|n]; [lia|]. cbn [copyType].
      destruct (IH n x bvs ltac:(lia) HC) as [(y & bvs1 & s1 & c1 & E1 & C1 & S1 & M1) _]. rewrite (bind_eq _ _ _ _ _ E1). cbn beta iota. exists y, bvs1. destruct s1.
      + rewrite (S1 eq_refl) in M1. eexists _, _. split; [reflexivity|]. split; [auto|]. split; [auto|]. now constructor.
      + eexists _, _. split; [reflexivity|]. split; [auto|]. split; [discriminate|]. now constructor.
    - intros r c os tl E Ms (N & IH) R. exists (S N). intros n x bvs Hn HC. destruct n as [|n]; [lia|]. cbn [copyType].
      destruct (IH n x bvs ltac:(lia) HC) as [_ HF]. destruct (HF (fields c) eq_refl) as (y & bvs1 & s1 & c1 & E1 & C1 & S1 & F1 & M1).
      assert (EG : get_rec r (addrecs h x) = Ok (c, addrecs h x)) by (unfold get_rec; cbn [rs addrecs]; now rewrite (nth_app_some _ _ _ _ E)).
      rewrite (bind_eq _ _ _ _ _ EG). rewrite (bind_eq _ _ _ _ _ E1). cbn beta iota. destruct s1.
      + rewrite (S1 eq_refl) in M1. exists y. eexists _, _, _. split; [reflexivity|]. split; [auto|]. split; [auto|]. cbn [rename].
        eapply M_rec; eauto. cbn. now apply nth_app_some.
      + exists (y ++ [mkRec c1 (rho c)]), bvs1, false, (RECt (length (rs h ++ x ++ y))). split; [|split; [|split; [discriminate|]]].
        * unfold bind, new_rec, addrecs. cbn. rewrite !app_assoc. reflexivity.
        * eapply copied_ext; [|exact C1]. rewrite app_assoc. apply addrecs_mono.
        * cbn [rename]. rewrite <- F1. apply (M_rec _ _ (mkRec c1 (rho c))).
          -- cbn [rs addrecs]. rewrite !app_assoc. rewrite nth_error_app2 by (rewrite <- !app_assoc; lia). rewrite <- !app_assoc, Nat.sub_diag. reflexivity.
          -- cbn [fields]. eapply means_all_ext; [|exact M1]. rewrite app_assoc. apply addrecs_mono.
          -- exact R.
    - exists 0%nat. intros n x bvs _ HC. split; [|intros fs EF; destruct fs; [|discriminate]];
        (exists [], bvs, true, []; rewrite app_nil_r; split; [reflexivity|]; split; [exact HC|]; split; [auto|]); [constructor|]. split; [reflexivity|constructor].
    - intros t ts o os M (N1 & IH) Ms (N2 & IHs). exists (N1 + N2)%nat. intros n x bvs Hn HC.
      destruct (IH n x bvs ltac:(lia) HC) as (y1 & bvs1 & s1 & c1 & E1 & C1 & S1 & M1).
      destruct (IHs n (x ++ y1) bvs1 ltac:(lia) C1) as [HL HF]. split.
      + destruct HL as (y2 & bvs2 & s2 & c2 & E2 & C2 & S2 & M2). rewrite <- app_assoc in *. cbn [copyTypeList].
        rewrite (bind_eq _ _ _ _ _ E1). cbn beta iota. rewrite (bind_eq _ _ _ _ _ E2). cbn beta iota. exists (y1 ++ y2), bvs2.
        assert (M1' : means (addrecs h (x ++ y1 ++ y2)) c1 (rename s o)) by (eapply means_ext; [|exact M1]; rewrite app_assoc; apply addrecs_mono).
        destruct (s1 && s2) eqn:ES.
        * apply andb_prop in ES as [-> ->]. rewrite (S1 eq_refl) in M1'. rewrite (S2 eq_refl) in M2. eexists _, _. split; [reflexivity|]. split; [auto|]. split; [auto|]. now constructor.
        * eexists _, _. split; [reflexivity|]. split; [auto|]. split; [discriminate|]. now constructor.
      + intros fs EF. destruct fs as [|[l t'] fs]; [discriminate|]. cbn [map snd] in EF. injection EF as -> EF.
        destruct (HF fs EF) as (y2 & bvs2 & s2 & c2 & E2 & C2 & S2 & F2 & M2). rewrite <- app_assoc in *. cbn [copyFields].
        rewrite (bind_eq _ _ _ _ _ E1). cbn beta iota. rewrite (bind_eq _ _ _ _ _ E2). cbn beta iota. exists (y1 ++ y2), bvs2.
        assert (M1' : means (addrecs h (x ++ y1 ++ y2)) c1 (rename s o)) by (eapply means_ext; [|exact M1]; rewrite app_assoc; apply addrecs_mono).
        destruct (s1 && s2) eqn:ES.
        * apply andb_prop in ES as [-> ->]. rewrite (S1 eq_refl) in M1'. rewrite (S2 eq_refl) in M2. eexists _, _. split; [reflexivity|]. split; [auto|]. split; [auto|].
          split; [reflexivity|]. cbn [map snd]. rewrite EF. rewrite EF in M2. now constructor.
        * eexists _, _. split; [reflexivity|]. split; [auto|]. split; [discriminate|]. cbn [map fst snd]. split; [now rewrite F2|]. now constructor.
  Qed.
End Copy.

(** ** The fresh variables *)
Definition refreshed (vp : bool) (bl : Z) (c c' : tvrec) : Prop :=
  c' = mkTv NoLink (tvEqu c) (vp || tvImp c) (tvOvl c) bl.
Lemma mapUE_ok vp bl h : forall ps x, (forall v, In v ps -> exists c, nth_error (vs h) v = Some c) ->
  exists news, mapUE vp bl ps (addvars h x) = Ok (combine ps (map VARt (seq (length (vs h) + length x) (length ps))), addvars h (x ++ news)) /\
    Forall2 (fun v c' => exists c, nth_error (vs h) v = Some c /\ refreshed vp bl c c') ps news.
Proof.
  induction ps as [|v ps IH]; intros x H.
  - exists []. rewrite app_nil_r. split; [reflexivity|constructor].
  - destruct (H v (or_introl eq_refl)) as (c & E). set (c' := mkTv NoLink (tvEqu c) (vp || tvImp c) (tvOvl c) bl).
    destruct (IH (x ++ [c'])) as (news & E2 & F2); [intros u Hu; apply H; now right|].
    exists (c' :: news). split; [|constructor; [exists c; split; [auto|reflexivity]|exact F2]].
    cbn [mapUE]. assert (E1 : refreshTypeVar vp bl v (addvars h x) = Ok ((length (vs h) + length x)%nat, addvars h (x ++ [c']))).
    { unfold refreshTypeVar, bind, get_tv. cbn [vs addvars]. rewrite (nth_app_some _ _ _ _ E). unfold newTypeVar, new_tv, addvars. cbn. now rewrite app_length, app_assoc. }
    rewrite (bind_eq _ _ _ _ _ E1). rewrite (bind_eq _ _ _ _ _ E2). unfold ret. cbn [length seq map combine]. rewrite <- app_assoc. cbn [app]. do 4 f_equal.
    do 3 f_equal. rewrite app_length. cbn. lia.
Qed.

Lemma lookup_combine ps : forall fs v, length fs = length ps -> NoDup ps ->
  lookup v (combine ps (map VARt fs)) = if in_dec Nat.eq_dec v ps then Some (VARt (replace ps fs v)) else None.
Proof.
  induction ps as [|p ps IH]; intros fs v HL HN; [reflexivity|]. destruct fs as [|f fs]; [discriminate|]. cbn [map combine lookup replace].
  inversion HN; subst. destruct (Nat.eqb_spec v p) as [->|N].
  - destruct (in_dec Nat.eq_dec p (p :: ps)) as [|X]; [reflexivity|]. destruct X. now left.
  - rewrite IH by (auto; now injection HL). destruct (in_dec Nat.eq_dec v ps) as [I|I], (in_dec Nat.eq_dec v (p :: ps)) as [J|J]; auto.
    + destruct J. now right.
    + destruct J; [congruence|contradiction].
Qed.
Lemma replace_out ps : forall fs v, ~ In v ps -> replace ps fs v = v.
Proof.
  induction ps as [|p ps IH]; intros fs v N; [reflexivity|]. destruct fs as [|f fs]; [reflexivity|]. cbn [replace].
  destruct (Nat.eqb_spec v p) as [->|]; [destruct N; now left|]. apply IH. intros I. apply N. now right.
Qed.
Lemma replace_in ps : forall fs v, length fs = length ps -> In v ps -> In (replace ps fs v) fs.
Proof.
  induction ps as [|p ps IH]; intros fs v HL HI; [destruct HI|]. destruct fs as [|f fs]; [discriminate|]. cbn [replace].
  destruct (Nat.eqb_spec v p) as [->|N]; [now left|]. right. apply IH; [now injection HL|]. destruct HI; [congruence|auto].
Qed.
