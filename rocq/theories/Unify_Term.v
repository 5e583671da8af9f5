(** * The unifier stops *)

From Coq Require Import ZArith List Bool Permutation Sorted Lia Arith.
From Verif Require Import Unify_Model Unify_Spec Unify_Base Unify_Sol Unify_Norm Unify_Meas Unify_Free Unify_Attr
  Unify_Link Unify_Rows Unify_Proof.
Import ListNotations.
Open Scope nat_scope.

(** ** More fuel does not change a result *)

Definition le {A} (m m' : U A) : Prop := forall h, m h <> Loop -> m' h = m h.

Lemma le_refl {A} (m : U A) : le m m.
Proof. intros h _. reflexivity. Qed.
Lemma le_trans {A} (a b c : U A) : le a b -> le b c -> le a c.
Proof. intros X Y h N. rewrite (Y h); [auto|]. rewrite (X h N). exact N. Qed.
Lemma le_loop {A} (m : U A) : le loop m.
Proof. intros h N. destruct (N eq_refl). Qed.
Lemma le_bind {A B} (m m' : U A) (k k' : A -> U B) : le m m' -> (forall a, le (k a) (k' a)) -> le (bind m k) (bind m' k').
Proof.
  intros X Y h N. unfold bind in *. destruct (m h) as [[a h1]|r| |] eqn:E; rewrite (X h) by congruence; rewrite E; auto.
  apply Y, N.
Qed.
Lemma le_foldTs f f' : (forall a t, le (f a t) (f' a t)) -> forall ts a, le (foldTs f a ts) (foldTs f' a ts).
Proof. intros H. induction ts as [|t ts IH]; intros a; cbn; [apply le_refl|]. apply le_bind; auto. Qed.
Lemma le_app {A} (f f' : A -> U unit) : (forall a, le (f a) (f' a)) -> forall ts, le (app f ts) (app f' ts).
Proof. intros H. induction ts as [|t ts IH]; cbn; [apply le_refl|]. apply le_bind; auto. Qed.
Lemma le_app2 f f' : (forall a b, le (f a b) (f' a b)) -> forall ts us, le (app2 f ts us) (app2 f' ts us).
Proof.
  intros H. induction ts as [|t ts IH]; intros [|u us]; cbn; try apply le_refl. apply le_bind; auto.
Qed.

Create HintDb le.
Create HintDb nl.

Ltac lem := cbv beta; lazymatch goal with
  | |- le ?a ?a => apply le_refl
  | |- le (bind _ _) (bind _ _) => apply le_bind; [lem|intros; lem]
  | |- le (foldTs _ _ _) (foldTs _ _ _) => apply le_foldTs; intros; lem
  | |- le (app _ _) (app _ _) => apply le_app; intros; lem
  | |- le (app2 _ _ _) (app2 _ _ _) => apply le_app2; intros; lem
  | |- le (match ?x with _ => _ end) _ => destruct x; lem
  | _ => auto with le
  end.

Lemma normRec_le n : forall m r, n <= m -> le (normalizeRecType n r) (normalizeRecType m r).
Proof.
  induction n as [|n IH]; intros [|m] r H; try apply le_loop; [lia|]. cbn [normalizeRecType].
  assert (n <= m) by lia. lem.
Qed.
#[local] Hint Resolve normRec_le : le.

Lemma norm_le n : forall m t, n <= m -> le (normType n t) (normType m t).
Proof.
  induction n as [|n IH]; intros [|m] t H; try apply le_loop; [lia|]. cbn [normType].
  assert (n <= m) by lia. lem.
Qed.
#[local] Hint Resolve norm_le : le.

Lemma freeVars_le n : forall m, n <= m -> (forall a t, le (freeVarsType n a t) (freeVarsType m a t)) /\
  (forall a w, le (freeVarsRowType n a w) (freeVarsRowType m a w)).
Proof.
  induction n as [|n IH]; intros [|m] H; try (split; intros; apply le_loop); [lia|].
  cbn [freeVarsType freeVarsRowType]. assert (K : n <= m) by lia. destruct (IH m K) as [A B].
  split; intros; lem.
Qed.
Lemma freeVarsType_le n m a t : n <= m -> le (freeVarsType n a t) (freeVarsType m a t).
Proof. intros H. apply (freeVars_le n m H). Qed.
Lemma freeVarsRow_le n m a t : n <= m -> le (freeVarsRowType n a t) (freeVarsRowType m a t).
Proof. intros H. apply (freeVars_le n m H). Qed.
#[local] Hint Resolve freeVarsType_le freeVarsRow_le : le.

Lemma makeEquality_le G n : forall m t, n <= m -> le (makeEquality n G t) (makeEquality m G t).
Proof.
  induction n as [|n IH]; intros [|m] t H; try apply le_loop; [lia|]. cbn [makeEquality].
  assert (n <= m) by lia. lem.
Qed.
#[local] Hint Resolve makeEquality_le : le.

Lemma makeOverloaded_le n m t : n <= m -> le (makeOverloaded n t) (makeOverloaded m t).
Proof. intros H. unfold makeOverloaded. lem. Qed.
#[local] Hint Resolve makeOverloaded_le : le.

Lemma updateAttributes_le G vp v t fv n m : n <= m -> le (updateAttributes n G vp v t fv) (updateAttributes m G vp v t fv).
Proof. intros H. unfold updateAttributes. lem. Qed.
#[local] Hint Resolve updateAttributes_le : le.

Lemma linkVar_le G vp v t n m : n <= m -> le (linkVarToType n G vp v t) (linkVarToType m G vp v t).
Proof. intros H. unfold linkVarToType. lem. Qed.
#[local] Hint Resolve linkVar_le : le.

Lemma recAcc_le vp un un' : (forall a b, le (un a b) (un' a b)) -> forall n m fs1 rho1 fs2 rho2 acc, n <= m ->
  le (unifyRecAcc n un vp fs1 rho1 fs2 rho2 acc) (unifyRecAcc m un' vp fs1 rho1 fs2 rho2 acc).
Proof.
  intros H0. induction n as [|n IH]; intros [|m] fs1 rho1 fs2 rho2 acc H; try apply le_loop; [lia|]. cbn [unifyRecAcc].
  assert (n <= m) by lia. lem.
Qed.

Lemma unify_le G vp n : forall m a b, n <= m -> le (unify n G vp a b) (unify m G vp a b).
Proof.
  induction n as [|n IH]; intros [|m] a b H; try apply le_loop; [lia|]. cbn [unify].
  assert (K : n <= m) by lia. lem. unfold unifyRec.
  apply le_bind; [lem|intros; apply le_bind; [lem|intros; apply le_bind; [apply recAcc_le; auto|intros; lem]]].
Qed.
#[local] Hint Resolve unify_le : le.

(** ** Enough fuel exists *)

Definition mono {A} (f : nat -> U A) : Prop := forall n m, n <= m -> le (f n) (f m).
Definition ter {A} (f : nat -> U A) (h : heap) : Prop := exists n, f n h <> Loop.

Lemma ter_le {A} (g f : nat -> U A) h : (forall n, le (g n) (f (S n))) -> ter g h -> ter f h.
Proof. intros H [n N]. exists (S n). rewrite (H n h N). exact N. Qed.

Lemma ter_const {A} (m : U A) h : m h <> Loop -> ter (fun _ => m) h.
Proof. intros N. exists 0. exact N. Qed.

Lemma ter_bind {A B} (f : nat -> U A) (k : nat -> A -> U B) h : mono f -> (forall a, mono (fun n => k n a)) ->
  ter f h -> (forall n a h1, f n h = Ok (a, h1) -> ter (fun n => k n a) h1) ->
  ter (fun n => bind (f n) (k n)) h.
Proof.
  intros MF MK [n N] S. destruct (f n h) as [[a h1]|r| |] eqn:E; [| | |congruence].
  - destruct (S _ _ _ E) as [m M]. exists (Nat.max n m). unfold bind.
    rewrite (MF n (Nat.max n m) (Nat.le_max_l _ _) h) by congruence. rewrite E.
    rewrite (MK a m (Nat.max n m) (Nat.le_max_r _ _) h1) by exact M. exact M.
  - exists n. unfold bind. rewrite E. discriminate.
  - exists n. unfold bind. rewrite E. discriminate.
Qed.

Ltac mn := let n := fresh "n" in let m := fresh "m" in let H := fresh "H" in intros n m H; lem.

(** *** Functions without fuel *)

Definition nl {A} (m : U A) : Prop := forall h, m h <> Loop.

Lemma nl_bind {A B} (m : U A) (k : A -> U B) : nl m -> (forall a, nl (k a)) -> nl (bind m k).
Proof. intros X Y h. unfold bind. specialize (X h). destruct (m h) as [[a h1]|r| |]; try discriminate; [apply Y|congruence]. Qed.
Lemma nl_app {A} (f : A -> U unit) : (forall a, nl (f a)) -> forall l, nl (app f l).
Proof. intros H. induction l as [|x l IH]; cbn; [intros h; discriminate|]. apply nl_bind; auto. Qed.
Lemma nl_ret {A} (a : A) : nl (ret a). Proof. intros h. discriminate. Qed.
Lemma nl_fail {A} r : nl (@fail A r). Proof. intros h. discriminate. Qed.
Lemma nl_fatal {A} : nl (@fatal A). Proof. intros h. discriminate. Qed.
Lemma nl_get_tv v : nl (get_tv v). Proof. intros h. unfold get_tv. destruct nth_error; discriminate. Qed.
Lemma nl_get_rec v : nl (get_rec v). Proof. intros h. unfold get_rec. destruct nth_error; discriminate. Qed.
Lemma nl_get_row v : nl (get_row v). Proof. intros h. unfold get_row. destruct nth_error; discriminate. Qed.
Lemma nl_set_tv v c : nl (set_tv v c). Proof. intros h. discriminate. Qed.
Lemma nl_set_rec v c : nl (set_rec v c). Proof. intros h. discriminate. Qed.
Lemma nl_set_row v c : nl (set_row v c). Proof. intros h. discriminate. Qed.
Lemma nl_new_tv c : nl (new_tv c). Proof. intros h. discriminate. Qed.
Lemma nl_new_row c : nl (new_row c). Proof. intros h. discriminate. Qed.
#[local] Hint Resolve nl_ret nl_fail nl_fatal nl_get_tv nl_get_rec nl_get_row nl_set_tv nl_set_rec nl_set_row nl_new_tv nl_new_row : nl.

Ltac nls := cbv beta; lazymatch goal with
  | |- nl (bind _ _) => apply nl_bind; [nls|intros; nls]
  | |- nl (app _ _) => apply nl_app; intros; nls
  | |- nl (match ?x with _ => _ end) => destruct x; nls
  | |- nl (setTvKind _ _) => unfold setTvKind; nls
  | |- nl (setTvLevel _ _) => unfold setTvLevel; nls
  | |- nl (setTvEqu _ _) => unfold setTvEqu; nls
  | |- nl (setTvImp _ _) => unfold setTvImp; nls
  | |- nl (setTvOvl _ _) => unfold setTvOvl; nls
  | |- nl (setRtFields _ _) => unfold setRtFields; nls
  | |- nl (setRtRho _ _) => unfold setRtRho; nls
  | |- nl (setRvEqu _ _) => unfold setRvEqu; nls
  | |- nl (setRvImp _ _) => unfold setRvImp; nls
  | |- nl (setRvLevel _ _) => unfold setRvLevel; nls
  | _ => auto with nl
  end.

Lemma nl_prune G l f : nl (prune_level G l f).
Proof. unfold prune_level. nls. Qed.
Lemma nl_makeImperative f : nl (makeImperative f).
Proof. unfold makeImperative. nls. Qed.
Lemma nl_makeEqualityRho f : nl (makeEqualityRho f).
Proof. unfold makeEqualityRho. nls. Qed.
Lemma nl_occur v f : nl (occur_check v f).
Proof. unfold occur_check. nls. Qed.
Lemma nl_unifyRho a b : nl (unifyRho a b).
Proof. unfold unifyRho. nls. Qed.
Lemma nl_extractLab vp a b : nl (extractLab vp a b).
Proof. unfold extractLab. nls. Qed.
#[local] Hint Resolve nl_prune nl_makeImperative nl_makeEqualityRho nl_occur nl_unifyRho nl_extractLab : nl.

Lemma ter_nl {A} (m : U A) h : nl m -> ter (fun _ => m) h.
Proof. intros N. apply ter_const, N. Qed.

Ltac tnl := apply ter_nl; nls.

(** *** Normalisation *)

Section T.
Variables (G : nat -> tninfo) (vp : bool).

Lemma normRec_ter L h p : wf G L h -> eqs L h p -> forall w h' r c, ws h' = ws h ->
  nth_error (rs h') r = Some c -> rho c = w -> ter (fun n => normalizeRecType n r) h'.
Proof.
  intros W E w. pose proof (acyclic _ _ _ _ W E (AW w)) as A.
  remember (AW w) as x eqn:X. revert w X. induction A as [x _ IH]. intros w -> h' r c EW EC ER.
  eapply (ter_le (fun n => do c <- get_rec r; do k <- get_row (rho c);
      match k with
      | NILrow => ret tt
      | VARrow _ _ _ => ret tt
      | LINKrow w' => setRtRho r w';; normalizeRecType n r
      | FIELDrow l t w' =>
          match insertField (l, t) (fields c) with
          | Some fs => setRtFields r fs;; setRtRho r w';; normalizeRecType n r
          | None => fatal
          end
      end)); [intros n; apply le_refl|].
  apply ter_bind; [mn|intros; mn|tnl|]. intros _ c1 h1 E1. apply get_rec_ok in E1 as [-> E1].
  rewrite EC in E1. injection E1 as <-.
  apply ter_bind; [mn|intros; mn|tnl|]. intros _ k h2 E2. apply get_row_ok in E2 as [-> E2].
  pose proof (nth_lt _ _ _ EC) as B.
  assert (IHw : forall w', In (AW w') (succ h (AW w)) -> forall h' r c, ws h' = ws h ->
    nth_error (rs h') r = Some c -> rho c = w' -> ter (fun n => normalizeRecType n r) h').
  { intros w' J. apply (IH (AW w')); [exact J|reflexivity]. }
  cbn in IHw. rewrite <- EW, <- ER, E2 in IHw.
  destruct k as [|e i lv|w'|l t w']; [tnl|tnl| |].
  - apply ter_bind; [mn|intros; mn|tnl|]. intros _ u h1 X. unfold setRtRho in X. bok X c2 h2 X2.
    apply get_rec_ok in X2 as [-> X2]. unfold set_rec in X. injection X as _ <-.
    eapply (IHw w' (or_introl eq_refl)); [reflexivity| |].
    + cbn. apply set_nth_same, B.
    + reflexivity.
  - destruct (insertField (l, t) (fields c)) as [fs|]; [|tnl].
    apply ter_bind; [mn|intros; mn|tnl|]. intros _ u h1 X. unfold setRtFields in X. bok X c2 h2 X2.
    apply get_rec_ok in X2 as [-> X2]. unfold set_rec in X. injection X as _ <-.
    apply ter_bind; [mn|intros; mn|tnl|]. intros _ u1 h1 X. unfold setRtRho in X. bok X c3 h2 X3.
    apply get_rec_ok in X3 as [-> X3]. unfold set_rec in X. injection X as _ <-.
    eapply (IHw w' (or_introl eq_refl)); [reflexivity| |].
    + cbn. apply set_nth_same. rewrite set_nth_len. exact B.
    + reflexivity.
Qed.

Lemma norm_ter L h t : inv G L h -> wf_ty G h t -> ter (fun n => normType n t) h.
Proof.
  intros [W [p E]].
  assert (F : forall t, (forall v, t <> VARt v) -> wf_ty G h t -> ter (fun n => normType n t) h).
  { intros t0 N T0. destruct t0 as [v|a b|ts tn|r]; [destruct (N v eq_refl)|exists 1; discriminate|exists 1; discriminate|].
    apply (ter_le (fun n => normalizeRecType n r;; ret (RECt r))); [intros n; apply le_refl|].
    apply ter_bind; [mn|intros; mn| |].
    - destruct (nth_ex _ _ T0) as [c X]. eapply (normRec_ter L h p W E (rho c)); eauto.
    - intros; tnl. }
  intros T. destruct t as [v|a b|ts tn|r]; try (apply F; [discriminate|exact T]).
  pose proof (wf_vacc _ _ _ W v) as A. revert T. induction A as [v _ IH]. intros T.
  destruct (nth_ex _ _ T) as [c X].
  apply (ter_le (fun n => do c <- get_tv v;
          match tvKind c with
          | LinkTo t' =>
              do t'' <- normType n t';
              setTvKind v (LinkTo t'');; ret t''
          | _ => ret (VARt v)
          end)); [intros n; apply le_refl|].
  apply ter_bind; [mn|intros; mn|tnl|]. intros _ c1 h1 E1. apply get_tv_ok in E1 as [-> E1].
  rewrite X in E1. injection E1 as <-. destruct (tvKind c) as [| |t0] eqn:K; [tnl|tnl|].
  apply ter_bind; [mn|intros; mn| |intros; tnl].
  pose proof (wf_link _ _ _ W _ _ _ X K) as T0.
  destruct t0 as [v0|a b|ts tn|r]; try (apply F; [discriminate|exact T0]).
  apply IH; [exists c; auto|exact T0].
Qed.

(** *** Free variables and equality *)

Lemma foldTs_ter (f : nat -> fvset -> ty -> U fvset) (I : heap -> Prop) ts :
  (forall a t, mono (fun n => f n a t)) ->
  (forall t, In t ts -> forall h a, I h -> ter (fun n => f n a t) h) ->
  (forall n t h a b h', In t ts -> I h -> f n a t h = Ok (b, h') -> I h') ->
  forall h a, I h -> ter (fun n => foldTs (f n) a ts) h.
Proof.
  intros MF. induction ts as [|t ts IH]; intros T K h a Ih; [exists 0; discriminate|]. cbn [foldTs].
  apply (ter_bind (fun n => f n a t) (fun n a' => foldTs (f n) a' ts)).
  - apply MF.
  - intros a' n m H. apply le_foldTs. intros a0 t0. apply MF, H.
  - apply T; [left; reflexivity|exact Ih].
  - intros n b h1 E. apply IH.
    + intros t0 J. apply T. right. exact J.
    + intros n0 t0 h0 a0 b0 h0' J. apply K. right. exact J.
    + eapply K; [left; reflexivity|exact Ih|exact E].
Qed.

Lemma app_ter (f : nat -> ty -> U unit) (I : heap -> Prop) ts :
  (forall t, mono (fun n => f n t)) ->
  (forall t, In t ts -> forall h, I h -> ter (fun n => f n t) h) ->
  (forall n t h b h', In t ts -> I h -> f n t h = Ok (b, h') -> I h') ->
  forall h, I h -> ter (fun n => app (f n) ts) h.
Proof.
  intros MF. induction ts as [|t ts IH]; intros T K h Ih; [exists 0; discriminate|]. cbn [app].
  apply (ter_bind (fun n => f n t) (fun n _ => app (f n) ts)).
  - apply MF.
  - intros a' n m H. apply le_app. intros t0. apply MF, H.
  - apply T; [left; reflexivity|exact Ih].
  - intros n b h1 E. apply IH.
    + intros t0 J. apply T. right. exact J.
    + intros n0 t0 h0 b0 h0' J. apply K. right. exact J.
    + eapply K; [left; reflexivity|exact Ih|exact E].
Qed.

Definition good L p h : Prop := inv G L h /\ eqs L h p.

Lemma good_comp L p h h' : good L p h -> Comp G L h h' -> good L p h'.
Proof. intros [I E] C. split; [apply C|apply C, E]. Qed.

Lemma den_size_con p t ts tn : In t ts -> tsize (den p t) < tsize (den p (CONt ts tn)).
Proof.
  intros J. cbn [den]. rewrite tsize_con. pose proof (lsize_in (den p t) (map (den p) ts) (in_map _ _ _ J)). lia.
Qed.

Lemma den_size_rec L h p r c : eqs L h p -> nth_error (rs h) r = Some c ->
  (forall l t, In (l, t) (fields c) -> tsize (den p t) < tsize (den p (RECt r))) /\
  rsize (dw p (rho c)) < tsize (den p (RECt r)).
Proof.
  intros (_ & E & _) X. specialize (E _ _ X). apply Join_rsize in E. cbn [den]. rewrite tsize_rec, E. split.
  - intros l t J. assert (K : In (l, den p t) (denf p (fields c))).
    { apply in_map_iff. exists (l, t). auto. }
    apply rsize_in in K. lia.
  - lia.
Qed.

Lemma freeVars_ter L p : forall N,
  (forall h t a, good L p h -> wf_ty G h t -> tsize (den p t) < N -> ter (fun n => freeVarsType n a t) h) /\
  (forall h w a, good L p h -> w < length (ws h) -> rsize (dw p w) < N -> ter (fun n => freeVarsRowType n a w) h).
Proof.
  induction N as [|N [IHt IHw]]; [split; intros; lia|]. split.
  - intros h t a Gd T SZ.
    eapply (ter_le (fun n => do t' <- normType n t;
      match t' with
      | VARt v =>
          let '(fns, fvs, frvs) := a in
          if member v fvs then ret a else ret (fns, v :: fvs, frvs)
      | ARROWt x y => do acc' <- freeVarsType n a x; freeVarsType n acc' y
      | CONt ts tn =>
          do '(fns, fvs, frvs) <- foldTs (freeVarsType n) a ts;
          if member tn fns then ret (fns, fvs, frvs) else ret (tn :: fns, fvs, frvs)
      | RECt r =>
          do c <- get_rec r;
          do acc' <- foldTs (freeVarsType n) a (map snd (fields c));
          freeVarsRowType n acc' (rho c)
      end)); [intros n; apply le_refl|].
    apply ter_bind; [mn|intros; mn|exact (norm_ter L h t (proj1 Gd) T)|].
    intros n t' h1 E1. destruct (norm_comp G L _ _ _ _ _ E1 (proj1 Gd) T) as (C & T1 & N1 & D1 & N2).
    apply good_comp with (h' := h1) in Gd; [|exact C]. rewrite (D1 p (proj2 Gd)) in SZ. clear C E1 D1 T h t n N1 N2.
    rename h1 into h. destruct t' as [v|x y|ts tn|r].
    + tnl.
    + destruct T1 as [Tx Ty]. cbn [den tsize] in SZ. apply ter_bind; [mn|intros; mn| |].
      * apply IHt; auto. lia.
      * intros n a' h1 E. destruct (proj1 (freeVars_comp G L n) _ _ _ _ _ E (proj1 Gd) Tx) as [C _].
        apply IHt; [exact (good_comp _ _ _ _ Gd C)|exact (comp_wf_ty _ _ _ _ _ C Ty)|lia].
    + apply wf_con in T1 as [_ TS]. rewrite Forall_forall in TS.
      apply (ter_bind (fun n => foldTs (freeVarsType n) a ts)); [mn|intros; mn| |].
      * apply (foldTs_ter freeVarsType (fun h => good L p h /\ forall t, In t ts -> wf_ty G h t)).
        -- intros a0 t0. mn.
        -- intros t J h0 a0 [Gd0 TS0]. apply IHt; auto. pose proof (den_size_con p t ts tn J). lia.
        -- intros n t h0 a0 b0 h0' J [Gd0 TS0] E.
           destruct (proj1 (freeVars_comp G L n) _ _ _ _ _ E (proj1 Gd0) (TS0 t J)) as [C _].
           split; [exact (good_comp _ _ _ _ Gd0 C)|]. intros t0 J0. exact (comp_wf_ty _ _ _ _ _ C (TS0 t0 J0)).
        -- split; [exact Gd|exact TS].
      * intros n [[x y] z] h1 E. tnl.
    + destruct (nth_ex _ _ T1) as [c X].
      apply ter_bind; [mn|intros; mn|tnl|]. intros _ c1 h1 E. apply get_rec_ok in E as [-> E].
      rewrite X in E. injection E as <-. destruct (den_size_rec L h p r c (proj2 Gd) X) as [SF SR].
      assert (TF : forall t, In t (map snd (fields c)) -> wf_ty G h t /\ tsize (den p t) < N).
      { intros t J. apply in_map_iff in J as [[l t0] [<- J]]. split.
        - exact (wf_fields _ _ _ (proj1 (proj1 Gd)) _ _ _ _ X J).
        - specialize (SF l t0 J). cbn [snd]. lia. }
      pose proof (wf_rho _ _ _ (proj1 (proj1 Gd)) _ _ X) as BR.
      set (I := fun h => good L p h /\ (forall t, In t (map snd (fields c)) -> wf_ty G h t) /\ rho c < length (ws h)).
      assert (KI : forall n t h a b h', In t (map snd (fields c)) -> I h -> freeVarsType n a t h = Ok (b, h') -> I h').
      { intros n t h0 a0 b0 h0' J (Gd0 & TS0 & B0) E.
        destruct (proj1 (freeVars_comp G L n) _ _ _ _ _ E (proj1 Gd0) (TS0 t J)) as [C _].
        split; [exact (good_comp _ _ _ _ Gd0 C)|]. split.
        - intros t0 J0. exact (comp_wf_ty _ _ _ _ _ C (TS0 t0 J0)).
        - destruct (comp_grows _ _ _ _ C) as (_ & _ & ?). lia. }
      assert (I0 : I h). { split; [exact Gd|split; [intros t J; apply TF, J|exact BR]]. }
      apply (ter_bind (fun n => foldTs (freeVarsType n) a (map snd (fields c)))); [mn|intros; mn| |].
      * apply (foldTs_ter freeVarsType I); [intros a0 t0; mn| |exact KI|exact I0].
        intros t J h0 a0 (Gd0 & TS0 & _). apply IHt; auto. apply TF, J.
      * intros n a' h1 E.
        assert (I1 : I h1).
        { revert E I0 KI. clear. generalize (map snd (fields c)). intros ts. revert h a.
          induction ts as [|t ts IH]; intros h a E I0 KI; cbn in E; [injection E as _ <-; exact I0|].
          bok E b h2 E2. apply (IH h2 b E); [eapply KI; [left; reflexivity|exact I0|exact E2]|].
          intros n0 t0 h0 a0 b0 h0' J. apply KI. right. exact J. }
        destruct I1 as (Gd1 & _ & B1). apply IHw; [exact Gd1|exact B1|lia].
  - intros h w a Gd B SZ.
    eapply (ter_le (fun n => do k <- get_row w;
      match k with
      | NILrow => ret a
      | VARrow _ _ _ =>
          let '(fns, fvs, frvs) := a in
          if member w frvs then ret a else ret (fns, fvs, w :: frvs)
      | FIELDrow l t w' => do acc' <- freeVarsType n a t; freeVarsRowType n acc' w'
      | LINKrow _ => fatal
      end)); [intros n; apply le_refl|].
    apply ter_bind; [mn|intros; mn|tnl|]. intros _ k h1 E. apply get_row_ok in E as [-> E].
    destruct k as [|e i lv|w'|l t w']; try tnl.
    destruct (wf_FIELDrow _ _ _ (proj1 (proj1 Gd)) _ _ _ _ E) as (B' & T & _ & _).
    destruct Gd as [I Ep]. pose proof (proj2 (proj2 Ep) _ _ E) as J. cbn in J. apply Join_rsize in J. cbn [rsize] in J.
    apply ter_bind; [mn|intros; mn| |].
    + apply IHt; [split; assumption|exact T|lia].
    + intros n a' h1 E1. destruct (proj1 (freeVars_comp G L n) _ _ _ _ _ E1 I T) as [C _].
      apply IHw; [exact (good_comp _ _ _ _ (conj I Ep) C)| |].
      * destruct (comp_grows _ _ _ _ C) as (_ & _ & ?). lia.
      * lia.
Qed.

Lemma makeEquality_good L p n t h u h' : makeEquality n G t h = Ok (u, h') -> good L p h -> wf_ty G h t ->
  good L p h' /\ grows h h' /\ forall u, openv h u -> openv h' u.
Proof.
  intros E [I Ep] T.
  destruct (makeEquality_ms G L false 0 (mkTv NoLink true false false 0%Z) eq_refl n eq_refl h t I T) as [O _].
  destruct (O _ _ E) as [M _]. split.
  - split; [exact (mid_inv _ _ _ _ _ _ M)|apply (mid_eqs _ _ _ _ _ _ M), Ep].
  - split; [|exact (mid_open _ _ _ _ _ _ M)].
    unfold grows. rewrite (mid_vs _ _ _ _ _ _ M), (mid_rs _ _ _ _ _ _ M), (mid_ws _ _ _ _ _ _ M). lia.
Qed.

Lemma makeEquality_ter L p : forall N h t, good L p h -> wf_ty G h t -> tsize (den p t) < N ->
  ter (fun n => makeEquality n G t) h.
Proof.
  induction N as [|N IH]; [intros; lia|]. intros h t Gd T SZ.
  eapply (ter_le (fun n => do t' <- normType n t;
      match t' with
      | VARt v =>
          do c <- get_tv v;
          if tvEqu c then ret tt
          else if isExplicit c then fail UnifyEquality
          else setTvEqu v true
      | ARROWt _ _ => fail UnifyEquality
      | CONt ts tn =>
          match tnEqu (G tn) with
          | FALSEequ => fail UnifyEquality
          | TRUEequ => app (makeEquality n G) ts
          | REFequ => ret tt
          end
      | RECt r =>
          do c <- get_rec r;
          app (makeEquality n G) (map snd (fields c));;
          makeEqualityRho (rho c)
      end)); [intros n; apply le_refl|].
  apply ter_bind; [mn|intros; mn|exact (norm_ter L h t (proj1 Gd) T)|].
  intros n t' h1 E1. destruct (norm_comp G L _ _ _ _ _ E1 (proj1 Gd) T) as (C & T1 & N1 & D1 & N2).
  apply good_comp with (h' := h1) in Gd; [|exact C]. rewrite (D1 p (proj2 Gd)) in SZ. clear C E1 D1 T h t n N1 N2.
  rename h1 into h.
  assert (AP : forall ts, (forall t, In t ts -> wf_ty G h t /\ tsize (den p t) < N) ->
    ter (fun n => app (makeEquality n G) ts) h).
  { intros ts TS. apply (app_ter (fun n => makeEquality n G) (fun h => good L p h /\ forall t, In t ts -> wf_ty G h t)).
    - intros t. mn.
    - intros t J h0 [Gd0 TS0]. apply IH; auto. apply TS, J.
    - intros n t h0 b h0' J [Gd0 TS0] E. destruct (makeEquality_good L p n t h0 b h0' E Gd0 (TS0 t J)) as (Gd1 & GR & _).
      split; [exact Gd1|]. intros t0 J0. exact (wf_ty_grows _ _ _ _ GR (TS0 t0 J0)).
    - split; [exact Gd|]. intros t J. apply TS, J. }
  destruct t' as [v|x y|ts tn|r]; try tnl.
  - apply wf_con in T1 as [_ TS]. rewrite Forall_forall in TS. destruct (tnEqu (G tn)); try tnl.
    apply AP. intros t J. split; [auto|]. pose proof (den_size_con p t ts tn J). lia.
  - destruct (nth_ex _ _ T1) as [c X].
    apply ter_bind; [mn|intros; mn|tnl|]. intros _ c1 h1 E. apply get_rec_ok in E as [-> E].
    rewrite X in E. injection E as <-. destruct (den_size_rec L h p r c (proj2 Gd) X) as [SF SR].
    apply ter_bind; [mn|intros; mn| |intros; tnl]. apply AP.
    intros t J. apply in_map_iff in J as [[l t0] [<- J]]. split.
    + exact (wf_fields _ _ _ (proj1 (proj1 Gd)) _ _ _ _ X J).
    + specialize (SF l t0 J). cbn [snd]. lia.
Qed.

Lemma mid_good L p h h' Q : Mid G L vp h h' Q -> good L p h -> good L p h'.
Proof. intros M [_ E]. split; [exact (mid_inv _ _ _ _ _ _ M)|apply (mid_eqs _ _ _ _ _ _ M), E]. Qed.

Lemma linkVar_ter L p h v c t : good L p h -> wf_ty G h t -> nth_error (vs h) v = Some c -> tvKind c = NoLink ->
  ter (fun n => linkVarToType n G vp v t) h.
Proof.
  intros Gd T E K. unfold linkVarToType.
  apply ter_bind; [mn|intros; mn|exact (proj1 (freeVars_ter L p _) h t _ Gd T (Nat.lt_succ_diag_r _))|].
  intros n b h1 E1. destruct (proj1 (freeVars_comp G L n) _ _ _ _ _ E1 (proj1 Gd) T) as [C F].
  apply good_comp with (h' := h1) in Gd; [|exact C]. apply (comp_wf_ty _ _ _ _ _ C) in T.
  pose proof (comp_kp G L v c h h1 (or_introl K) C E) as E2.
  assert (OP : opened h1 b).
  { apply (opened_comp _ _ _ _ _ C). apply (fv_open _ _ _ _ _ _ _ F). split; intros x []. }
  clear F C E E1 h n. rename h1 into h. destruct b as [[fns fvs] frvs].
  apply ter_bind; [mn|intros; mn|tnl|]. intros _ u h1 E1.
  apply (proj1 (occur_check_spec v fvs h)) in E1 as [-> NI].
  apply ter_bind; [mn|intros; mn|tnl|]. intros _ c1 h1 E1. apply get_tv_ok in E1 as [-> E1].
  rewrite E2 in E1. injection E1 as <-.
  assert (HV : forall u, In u fvs -> openv h u /\ u <> v).
  { intros x J. split; [exact (proj1 OP x J)|congruence]. }
  apply ter_bind; [mn|intros; mn|tnl|]. intros _ u1 h1 E1.
  destruct (prune_ms G L vp v c h (tvLevel c) fns fvs frvs (proj1 Gd) HV) as [O _].
  destruct (O _ _ E1) as [M1 K1]. apply K1 in E2.
  assert (HV1 : forall u, In u fvs -> openv h1 u /\ u <> v).
  { intros x J. destruct (HV x J) as [X Y]. split; [exact (mid_open _ _ _ _ _ _ M1 x X)|exact Y]. }
  apply (mid_good _ _ _ _ _ M1) in Gd. apply (mid_wf_ty _ _ _ _ _ _ _ M1) in T.
  clear M1 K1 O E1 HV OP h. rename h1 into h.
  apply ter_bind; [mn|intros; mn| |intros; tnl].
  unfold updateAttributes. apply ter_bind; [mn|intros; mn|tnl|]. intros _ c1 h1 E1. apply get_tv_ok in E1 as [-> E1].
  rewrite E2 in E1. injection E1 as <-.
  apply ter_bind; [mn|intros; mn| |].
  { destruct (tvEqu c); [|tnl]. exact (makeEquality_ter L p _ h t Gd T (Nat.lt_succ_diag_r _)). }
  intros n u2 h1 E1.
  assert (X : good L p h1 /\ grows h h1 /\ forall u, openv h u -> openv h1 u).
  { destruct (tvEqu c); [exact (makeEquality_good L p n t h u2 h1 E1 Gd T)|].
    injection E1 as _ <-. split; [exact Gd|]. split; [apply grows_refl|auto]. }
  destruct X as (Gd1 & GR & OV). apply (wf_ty_grows _ _ _ _ GR) in T.
  assert (HV2 : forall u, In u fvs -> openv h1 u /\ u <> v).
  { intros x J. destruct (HV1 x J) as [X Y]. auto. }
  apply ter_bind; [mn|intros; mn|tnl|]. intros _ u3 h2 E3.
  assert (X : inv G L h2 /\ wf_ty G h2 t).
  { destruct (tvImp c && negb vp) eqn:VI; [|injection E3 as _ <-; split; [exact (proj1 Gd1)|exact T]].
    apply andb_true_iff in VI as [_ VI]. apply negb_true_iff in VI.
    destruct (makeImperative_ms G L vp v c h1 fns fvs frvs VI (proj1 Gd1) HV2) as [O _].
    destruct (O _ _ E3) as [M _]. split; [exact (mid_inv _ _ _ _ _ _ M)|exact (mid_wf_ty _ _ _ _ _ _ _ M T)]. }
  destruct X as [I2 T2]. destruct (tvOvl c); [|tnl]. unfold makeOverloaded.
  apply ter_bind; [mn|intros; mn|exact (norm_ter L h2 t I2 T2)|]. intros; tnl.
Qed.

(** *** The unifier *)

Variable Lam : list lab.

(** Something has been bound since the measure was [k], or the types are
    smaller than [s]. *)
Definition small (k s : nat) (L : nat -> list lab) (h : heap) (l : list (ty * ty)) : Prop :=
  mu Lam L h < k \/
  (mu Lam L h <= k /\ exists p, eqs L h p /\ forall a b, In (a, b) l -> tsize (den p a) + tsize (den p b) < s).

Lemma small_step k s L h L' h' l l' : Lb Lam L h -> WW G L h L' h' -> small k s L h l ->
  (forall x, In x l' -> In x l) -> Lb Lam L' h' /\ small k s L' h' l'.
Proof.
  intros B W Sm I. destruct (W Lam B) as [B' X]. split; [exact B'|].
  destruct Sm as [Sm|(Sm & p & E & Z)], X as [X|[-> C]].
  - left. lia.
  - left. rewrite (comp_mu _ _ _ _ _ C). exact Sm.
  - left. lia.
  - right. rewrite (comp_mu _ _ _ _ _ C). split; [exact Sm|]. exists p. split; [apply C, E|]. auto.
Qed.

Definition callok (k s : nat) : Prop := forall L h a b l, inv G L h -> Lb Lam L h -> wf_ty G h a -> wf_ty G h b ->
  small k s L h l -> In (a, b) l -> ter (fun n => unify n G vp a b) h.

Lemma small_less k s L h l l' : mu Lam L h < k -> small k s L h l -> small k s L h l'.
Proof. intros X _. left. exact X. Qed.

Lemma app2_ter k s : callok k s -> forall ts us L h, inv G L h -> Lb Lam L h ->
  Forall (wf_ty G h) ts -> Forall (wf_ty G h) us ->
  (exists l, small k s L h l /\ forall a b, In a ts -> In b us -> In (a, b) l) ->
  ter (fun n => app2 (unify n G vp) ts us) h.
Proof.
  intros CO. induction ts as [|t ts IH]; intros [|u us] L h I B T1 T2 (l & Sm & IL); try (exists 0; discriminate).
  inversion T1; inversion T2; subst. cbn [app2].
  apply (ter_bind (fun n => unify n G vp t u) (fun n _ => app2 (unify n G vp) ts us)); [mn|intros; mn| |].
  - apply (CO L h t u l); auto. apply IL; left; reflexivity.
  - intros n x h1 E. destruct (unify_sp G vp n L h t u I) as [O _]; [assumption..|].
    destruct (O _ _ E) as (L1 & P1 & W1). destruct (small_step _ _ _ _ _ _ _ l B W1 Sm (fun x H => H)) as [B1 Sm1].
    pose proof (po_grows _ _ _ _ _ _ _ P1) as GR.
    apply (IH us L1 h1); auto.
    + apply P1.
    + eapply Forall_impl; [|eassumption]. intros; eapply wf_ty_grows; eauto.
    + eapply Forall_impl; [|eassumption]. intros; eapply wf_ty_grows; eauto.
    + exists l. split; [exact Sm1|]. intros a b J K. apply IL; right; assumption.
Qed.

Lemma recAcc_ter k s : callok k s -> forall N fs1 fs2 rho1 rho2 acc L h, length fs1 + length fs2 < N ->
  RI G L h fs1 rho1 fs2 rho2 acc -> Lb Lam L h ->
  (exists l, small k s L h l /\ forall x y, In x fs1 -> In y fs2 -> In (snd x, snd y) l) ->
  ter (fun n => unifyRecAcc n (unify n G vp) vp fs1 rho1 fs2 rho2 acc) h.
Proof.
  intros CO. induction N as [|N IH]; [intros; lia|]. intros fs1 fs2 rho1 rho2 acc L h LN RI0 B (l & Sm & IL).
  set (rc := fun n f1 r1 f2 r2 ac => unifyRecAcc n (unify n G vp) vp f1 r1 f2 r2 ac).
  assert (MR : forall f1 r1 f2 r2 ac, mono (fun n => rc n f1 r1 f2 r2 ac)).
  { intros. intros n m H. apply recAcc_le; [|exact H]. intros; lem. }
  pose proof (ri_inv _ _ _ _ _ _ _ _ RI0) as I.
  assert (C1 : forall lab1 t1 fs1', fs1 = (lab1, t1) :: fs1' ->
    (forall y, In y (labels fs2) -> lt_lab lab1 y = true) ->
    ter (fun n => do '(t2, rho2') <- extractLab vp lab1 rho2; unify n G vp t1 t2;;
            rc n fs1' rho1 fs2 rho2' ((lab1, t1) :: acc)) h).
  { intros lb t1 fs1' -> F. pose proof (ri_front _ _ _ _ _ _ _ _ _ _ RI0 F) as NI.
    apply ter_bind; [mn|intros [t2 r2]; intros n m H; apply le_bind; [lem|intros; apply MR, H]|tnl|].
    intros _ [t2 rho2'] h1 E1.
    destruct (extractLab_sp G vp L h lb rho2 I (ri_b2 _ _ _ _ _ _ _ _ RI0) NI) as [O _].
    destruct (O _ _ E1) as (L1 & P1 & T2 & B2 & S2 & M2 & D2). cbn [fst snd] in *.
    pose proof (ri_post G vp _ _ _ _ _ _ _ _ _ _ RI0 P1) as RI1.
    rewrite <- (po_L _ _ _ _ _ _ _ P1 rho2 (ri_b2 _ _ _ _ _ _ _ _ RI0)) in S2.
    assert (T1 : wf_ty G h1 t1) by (apply (ri_wf1 _ _ _ _ _ _ _ _ RI1 lb); left; reflexivity).
    destruct (M2 Lam) as [B1 LT]; [|exact B|].
    { apply (B rho1 (ri_b1 _ _ _ _ _ _ _ _ RI0)), (ri_l1 _ _ _ _ _ _ _ _ RI0), in_lab2. right. reflexivity. }
    assert (Sm1 : forall l', small k s L1 h1 l') by (intros; left; destruct Sm as [Sm|[Sm _]]; lia).
    apply (ter_bind (fun n => unify n G vp t1 t2)); [mn|intros; apply MR| |].
    - apply (CO L1 h1 t1 t2 [(t1, t2)]); auto; [apply RI1|left; reflexivity].
    - intros n x h2 E2. destruct (unify_sp G vp n L1 h1 t1 t2 (ri_inv _ _ _ _ _ _ _ _ RI1) T1 T2) as [O2 _].
      destruct (O2 _ _ E2) as (L2 & P2 & W2).
      set (l' := flat_map (fun x => map (fun y : lab * ty => (snd x, snd y)) fs2) fs1').
      destruct (small_step _ _ _ _ _ _ _ l' B1 W2 (Sm1 l') (fun x H => H)) as [B3 Sm2].
      apply (IH fs1' fs2 rho1 rho2' ((lb, t1) :: acc) L2 h2).
      + cbn in LN. lia.
      + eapply ri_post; [|exact P2]. eapply ri_move; eauto.
      + exact B3.
      + exists l'. split; [exact Sm2|]. intros x0 y0 J K. unfold l'. apply in_flat_map. exists x0. split; [exact J|].
        apply in_map_iff. exists y0. auto. }
  assert (C2 : forall lab2 t2 fs2', fs2 = (lab2, t2) :: fs2' ->
    (forall y, In y (labels fs1) -> lt_lab lab2 y = true) ->
    ter (fun n => do '(t1, rho1') <- extractLab vp lab2 rho1; unify n G vp t1 t2;;
            rc n fs1 rho1' fs2' rho2 ((lab2, t2) :: acc)) h).
  { intros lb t2 fs2' -> F. pose proof (ri_front _ _ _ _ _ _ _ _ _ _ (ri_sym _ _ _ _ _ _ _ _ RI0) F) as NI.
    apply ter_bind; [mn|intros [t1 r1]; intros n m H; apply le_bind; [lem|intros; apply MR, H]|tnl|].
    intros _ [t1 rho1'] h1 E1.
    destruct (extractLab_sp G vp L h lb rho1 I (ri_b1 _ _ _ _ _ _ _ _ RI0) NI) as [O _].
    destruct (O _ _ E1) as (L1 & P1 & T1 & B1 & S1 & M1 & D1). cbn [fst snd] in *.
    pose proof (ri_post G vp _ _ _ _ _ _ _ _ _ _ RI0 P1) as RI1.
    rewrite <- (po_L _ _ _ _ _ _ _ P1 rho1 (ri_b1 _ _ _ _ _ _ _ _ RI0)) in S1.
    assert (T2 : wf_ty G h1 t2) by (apply (ri_wf2 _ _ _ _ _ _ _ _ RI1 lb); left; reflexivity).
    destruct (M1 Lam) as [B3 LT]; [|exact B|].
    { apply (B rho2 (ri_b2 _ _ _ _ _ _ _ _ RI0)), (ri_l2 _ _ _ _ _ _ _ _ RI0), in_lab2. right. reflexivity. }
    assert (Sm1 : forall l', small k s L1 h1 l') by (intros; left; destruct Sm as [Sm|[Sm _]]; lia).
    apply (ter_bind (fun n => unify n G vp t1 t2)); [mn|intros; apply MR| |].
    - apply (CO L1 h1 t1 t2 [(t1, t2)]); auto; [apply RI1|left; reflexivity].
    - intros n x h2 E2. destruct (unify_sp G vp n L1 h1 t1 t2 (ri_inv _ _ _ _ _ _ _ _ RI1) T1 T2) as [O2 _].
      destruct (O2 _ _ E2) as (L2 & P2 & W2).
      set (l' := flat_map (fun x => map (fun y : lab * ty => (snd x, snd y)) fs2') fs1).
      destruct (small_step _ _ _ _ _ _ _ l' B3 W2 (Sm1 l') (fun x H => H)) as [B4 Sm2].
      apply (IH fs1 fs2' rho1' rho2 ((lb, t2) :: acc) L2 h2).
      + cbn in LN. lia.
      + eapply ri_post; [|exact P2]. apply ri_sym. eapply ri_move; [apply ri_sym; exact RI1|..]; eauto.
      + exact B4.
      + exists l'. split; [exact Sm2|]. intros x0 y0 J K. unfold l'. apply in_flat_map. exists x0. split; [exact J|].
        apply in_map_iff. exists y0. auto. }
  eapply (ter_le (fun n => match fs1, fs2 with
      | [], [] => unifyRho rho1 rho2;; ret (rev acc, rho1)
      | (lab1, t1) :: fs1', [] =>
          do '(t2, rho2') <- extractLab vp lab1 rho2;
          unify n G vp t1 t2;;
          rc n fs1' rho1 [] rho2' ((lab1, t1) :: acc)
      | [], (lab2, t2) :: fs2' =>
          do '(t1, rho1') <- extractLab vp lab2 rho1;
          unify n G vp t1 t2;;
          rc n [] rho1' fs2' rho2 ((lab2, t2) :: acc)
      | (lab1, t1) :: fs1', (lab2, t2) :: fs2' =>
          if lt_lab lab1 lab2 then
            do '(t2', rho2') <- extractLab vp lab1 rho2;
            unify n G vp t1 t2';;
            rc n fs1' rho1 fs2 rho2' ((lab1, t1) :: acc)
          else if lt_lab lab2 lab1 then
            do '(t1', rho1') <- extractLab vp lab2 rho1;
            unify n G vp t1' t2;;
            rc n fs1 rho1' fs2' rho2 ((lab2, t2) :: acc)
          else
            unify n G vp t1 t2;;
            rc n fs1' rho1 fs2' rho2 ((lab1, t1) :: acc)
      end)).
  { intros n. cbn [unifyRecAcc]. unfold rc.
    assert (LU : forall a b, le (unify n G vp a b) (unify (S n) G vp a b)) by (intros; apply unify_le; lia).
    assert (LR : forall f1 r1 f2 r2 ac, le (unifyRecAcc n (unify n G vp) vp f1 r1 f2 r2 ac) (unifyRecAcc n (unify (S n) G vp) vp f1 r1 f2 r2 ac)).
    { intros. apply recAcc_le; [exact LU|lia]. }
    lem. }
  destruct fs1 as [|[lab1 t1] fs1'], fs2 as [|[lab2 t2] fs2'].
  - tnl.
  - apply (C2 lab2 t2 fs2' eq_refl). intros y [].
  - apply (C1 lab1 t1 fs1' eq_refl). intros y [].
  - destruct (lt_lab lab1 lab2) eqn:E1; [|destruct (lt_lab lab2 lab1) eqn:E2].
    + apply (C1 lab1 t1 fs1' eq_refl). intros y [<-|J]; [exact E1|].
      apply (lt_trans _ lab2); [exact E1|]. pose proof (ri_s2 _ _ _ _ _ _ _ _ RI0) as X.
      apply sorted_app in X as (_ & X & _). exact (sorted_lt _ _ _ X _ J).
    + apply (C2 lab2 t2 fs2' eq_refl). intros y [<-|J]; [exact E2|].
      apply (lt_trans _ lab1); [exact E2|]. pose proof (ri_s1 _ _ _ _ _ _ _ _ RI0) as X.
      apply sorted_app in X as (_ & X & _). exact (sorted_lt _ _ _ X _ J).
    + pose proof (lt_total _ _ E1 E2) as <-. clear C1 C2 E1 E2.
      assert (T1 : wf_ty G h t1) by (apply (ri_wf1 _ _ _ _ _ _ _ _ RI0 lab1); left; reflexivity).
      assert (T2 : wf_ty G h t2) by (apply (ri_wf2 _ _ _ _ _ _ _ _ RI0 lab1); left; reflexivity).
      apply (ter_bind (fun n => unify n G vp t1 t2)); [mn|intros; apply MR| |].
      * apply (CO L h t1 t2 l); auto. apply (IL (lab1, t1) (lab1, t2)); left; reflexivity.
      * intros n x h2 E2. destruct (unify_sp G vp n L h t1 t2 I T1 T2) as [O2 _].
        destruct (O2 _ _ E2) as (L2 & P2 & W2).
        destruct (small_step _ _ _ _ _ _ _ l B W2 Sm (fun x H => H)) as [B1 Sm1].
        apply (IH fs1' fs2' rho1 rho2 ((lab1, t1) :: acc) L2 h2).
        -- cbn in LN. lia.
        -- eapply ri_post; [|exact P2]. eapply ri_both; exact RI0.
        -- exact B1.
        -- exists l. split; [exact Sm1|]. intros x0 y0 J K. apply IL; right; assumption.
Qed.

Lemma unifyRec_ter k s L h p r r' : callok k s -> inv G L h -> Lb Lam L h -> mu Lam L h <= k -> eqs L h p ->
  r < length (rs h) -> r' < length (rs h) -> tsize (den p (RECt r)) + tsize (den p (RECt r')) <= s ->
  ter (fun n => unifyRec n (unify n G vp) vp r r') h.
Proof.
  intros CO I B M E R R' SZ. pose proof (proj1 I) as W. unfold unifyRec.
  destruct (nth_ex _ _ R) as [c X], (nth_ex _ _ R') as [c' X'].
  assert (MR : forall f1 r1 f2 r2 ac, mono (fun n => unifyRecAcc n (unify n G vp) vp f1 r1 f2 r2 ac)).
  { intros. intros n m H. apply recAcc_le; [|exact H]. intros; lem. }
  apply ter_bind; [mn| |tnl|].
  { intros a n m H. apply le_bind; [lem|]. intros a'. apply le_bind; [apply MR, H|]. intros; lem. }
  intros _ c1 h1 E1. apply get_rec_ok in E1 as [-> E1]. rewrite X in E1. injection E1 as <-.
  apply ter_bind; [mn| |tnl|].
  { intros a n m H. apply le_bind; [apply MR, H|]. intros; lem. }
  intros _ c1 h1 E1. apply get_rec_ok in E1 as [-> E1]. rewrite X' in E1. injection E1 as <-.
  apply ter_bind; [apply MR|intros; mn| |intros; tnl].
  destruct (den_size_rec L h p r c E X) as [S1 _]. destruct (den_size_rec L h p r' c' E X') as [S2 _].
  eapply (recAcc_ter k s CO _ _ _ _ _ _ L h (Nat.lt_succ_diag_r _)); [|exact B|].
  - constructor; cbn; auto.
    + intros l t J. exact (wf_fields _ _ _ W _ _ _ _ X J).
    + intros l t J. exact (wf_fields _ _ _ W _ _ _ _ X' J).
    + intros l t [].
    + exact (wf_rho _ _ _ W _ _ X).
    + exact (wf_rho _ _ _ W _ _ X').
    + exact (wf_sorted _ _ _ W _ _ X).
    + exact (wf_sorted _ _ _ W _ _ X').
    + exact (wf_taken _ _ _ W _ _ X).
    + exact (wf_taken _ _ _ W _ _ X').
  - exists (flat_map (fun x : lab * ty => map (fun y : lab * ty => (snd x, snd y)) (fields c')) (fields c)). split.
    + right. split; [exact M|]. exists p. split; [exact E|]. intros a b J.
      apply in_flat_map in J as ([la ta] & J & K). apply in_map_iff in K as ([lb tb] & K1 & K2).
      cbn [snd] in K1. injection K1 as <- <-. specialize (S1 la ta J). specialize (S2 lb tb K2). lia.
    + intros x y J K. apply in_flat_map. exists x. split; [exact J|]. apply in_map_iff. exists y. auto.
Qed.

Lemma unify_ter_step k s : callok k s -> forall L h t1 t2 p, inv G L h -> Lb Lam L h -> mu Lam L h <= k ->
  wf_ty G h t1 -> wf_ty G h t2 -> eqs L h p -> tsize (den p t1) + tsize (den p t2) <= s ->
  ter (fun n => unify n G vp t1 t2) h.
Proof.
  intros CO L h t1 t2 p I B M T1 T2 E SZ.
  eapply (ter_le (fun n => do t1' <- normType n t1;
      do t2' <- normType n t2;
      match t1', t2' with
      | VARt v1, VARt v2 =>
          if Nat.eqb v1 v2 then ret tt else
          do c1 <- get_tv v1;
          do c2 <- get_tv v2;
          match tvKind c1, tvKind c2 with
          | Explicit, Explicit => fail UnifyOther
          | Explicit, _ => linkVarToType n G vp v2 t1'
          | _, Explicit => linkVarToType n G vp v1 t2'
          | _, _ =>
              if Z.leb (tvLevel c1) (tvLevel c2) then linkVarToType n G vp v1 t2'
              else linkVarToType n G vp v2 t1'
          end
      | VARt v, _ =>
          do c <- get_tv v;
          if isExplicit c then fail UnifyOther else linkVarToType n G vp v t2'
      | _, VARt v =>
          do c <- get_tv v;
          if isExplicit c then fail UnifyOther else linkVarToType n G vp v t1'
      | ARROWt a b, ARROWt a' b' => unify n G vp a a';; unify n G vp b b'
      | CONt ts tn, CONt ts' tn' =>
          if negb (Nat.eqb (tnArity (G tn)) (tnArity (G tn'))) then fail UnifyOther
          else if Nat.eqb tn tn' then app2 (unify n G vp) ts ts' else fail UnifyOther
      | RECt r, RECt r' =>
          if Nat.eqb r r' then ret tt else unifyRec n (unify n G vp) vp r r'
      | _, _ => fail UnifyOther
      end)); [intros n; apply le_refl|].
  assert (MU : forall r r', mono (fun n => unifyRec n (unify n G vp) vp r r')).
  { intros r r' n m H. unfold unifyRec. apply le_bind; [lem|]. intros. apply le_bind; [lem|]. intros.
    apply le_bind; [apply recAcc_le; [intros; lem|exact H]|]. intros; lem. }
  apply ter_bind; [mn| |exact (norm_ter L h t1 I T1)|].
  { intros t1' n m H. lem. apply MU, H. }
  intros n1 u1 h1 E1. destruct (norm_comp G L _ _ _ _ _ E1 I T1) as (C1 & W1 & N1 & D1 & _).
  apply ter_bind; [mn| |exact (norm_ter L h1 t2 (proj1 C1) (comp_wf_ty _ _ _ _ _ C1 T2))|].
  { intros t1' n m H. lem. apply MU, H. }
  intros n2 u2 h2 E2. pose proof (comp_wf_ty _ _ _ _ _ C1 T2) as T2'.
  destruct (norm_comp G L _ _ _ _ _ E2 (proj1 C1) T2') as (C2 & W2 & N2 & D2 & _).
  pose proof (comp_trans _ _ _ _ _ C1 C2) as C. apply (comp_wf_ty _ _ _ _ _ C2) in W1. apply (nf_comp _ _ _ _ _ C2) in N1.
  assert (Ep1 : eqs L h1 p) by (apply C1, E). assert (Ep : eqs L h2 p) by (apply C2, Ep1).
  rewrite (D1 p Ep1), (D2 p Ep) in SZ. rewrite <- (comp_mu G Lam _ _ _ C) in M.
  apply (comp_Lb G Lam _ _ _ C) in B. pose proof (proj1 C) as I2. assert (Gd : good L p h2) by (split; assumption).
  clear C C1 C2 E1 E2 D1 D2 Ep1 E T1 T2 T2' I n1 n2. clear h h1 t1 t2. rename h2 into h.
  assert (LK : forall v c t, wf_ty G h t -> nth_error (vs h) v = Some c -> tvKind c = NoLink ->
     ter (fun n => linkVarToType n G vp v t) h) by (intros v c t; exact (linkVar_ter L p h v c t Gd)).
  assert (VX : forall v t, wf_ty G h t -> nf h (VARt v) ->
    ter (fun n => do c <- get_tv v; if isExplicit c then fail UnifyOther else linkVarToType n G vp v t) h).
  { intros v t T (c & X & K). apply ter_bind; [mn|intros; mn|tnl|].
    intros _ c1 h1 E. apply get_tv_ok in E as [-> E]. rewrite X in E. injection E as <-.
    unfold isExplicit. destruct K as [K|K]; rewrite K; [exact (LK v c t T X K)|tnl]. }
  destruct u1 as [v1|a1 b1|ts1 tn1|r1], u2 as [v2|a2 b2|ts2 tn2|r2]; try (apply VX; assumption); try tnl.
  - destruct (Nat.eqb v1 v2); [tnl|]. pose proof N1 as (c1 & X1 & K1). pose proof N2 as (c2 & X2 & K2).
    apply ter_bind; [mn|intros; mn|tnl|]. intros _ c h1 E. apply get_tv_ok in E as [-> E].
    rewrite X1 in E. injection E as <-.
    apply ter_bind; [mn|intros; mn|tnl|]. intros _ c h1 E. apply get_tv_ok in E as [-> E].
    rewrite X2 in E. injection E as <-.
    destruct K1 as [K1|K1], K2 as [K2|K2]; rewrite K1, K2.
    + destruct (Z.leb (tvLevel c1) (tvLevel c2)); [exact (LK _ _ _ W2 X1 K1)|exact (LK _ _ _ W1 X2 K2)].
    + exact (LK _ _ _ W2 X1 K1).
    + exact (LK _ _ _ W1 X2 K2).
    + tnl.
  - destruct W1 as [Wa1 Wb1], W2 as [Wa2 Wb2]. cbn [den tsize] in SZ.
    assert (Sm : small k s L h [(a1, a2); (b1, b2)]).
    { right. split; [exact M|]. exists p. split; [exact Ep|]. intros a b [J|[J|[]]]; injection J as <- <-; lia. }
    apply ter_bind; [mn|intros; mn| |].
    + apply (CO L h a1 a2 [(a1, a2); (b1, b2)]); auto. left. reflexivity.
    + intros n x h1 E1. destruct (unify_sp G vp n L h a1 a2 I2 Wa1 Wa2) as [O _].
      destruct (O _ _ E1) as (L1 & P1 & WW1). pose proof (po_grows _ _ _ _ _ _ _ P1) as GR.
      destruct (small_step _ _ _ _ _ _ _ _ B WW1 Sm (fun x H => H)) as [B1 Sm1].
      apply (CO L1 h1 b1 b2 [(a1, a2); (b1, b2)]); auto.
      * apply P1.
      * exact (wf_ty_grows _ _ _ _ GR Wb1).
      * exact (wf_ty_grows _ _ _ _ GR Wb2).
      * right. left. reflexivity.
  - apply wf_con in W1 as [_ W1]. apply wf_con in W2 as [_ W2].
    destruct (negb (Nat.eqb (tnArity (G tn1)) (tnArity (G tn2)))); [tnl|].
    destruct (Nat.eqb tn1 tn2); [|tnl].
    apply (app2_ter k s CO ts1 ts2 L h I2 B W1 W2).
    exists (flat_map (fun x => map (fun y => (x, y)) ts2) ts1). split.
    + right. split; [exact M|]. exists p. split; [exact Ep|]. intros a b J.
      apply in_flat_map in J as (a' & J & K). apply in_map_iff in K as (b' & K1 & K2). injection K1 as <- <-.
      pose proof (den_size_con p _ ts1 tn1 J). pose proof (den_size_con p _ ts2 tn2 K2). lia.
    + intros a b J K. apply in_flat_map. exists a. split; [exact J|]. apply in_map. exact K.
  - destruct (Nat.eqb r1 r2); [tnl|].
    exact (unifyRec_ter k s L h p r1 r2 CO I2 B M Ep W1 W2 SZ).
Qed.

Lemma callok_all : forall k s, callok k s.
Proof.
  induction k as [k IHk] using (well_founded_induction Wf_nat.lt_wf).
  induction s as [s IHs] using (well_founded_induction Wf_nat.lt_wf).
  intros L h a b l I B Ta Tb Sm J. destruct Sm as [Sm|(Sm & p & E & Z)].
  - destruct I as [W [p E]].
    exact (unify_ter_step (mu Lam L h) _ (IHk _ Sm _) L h a b p (conj W (ex_intro _ p E)) B (Nat.le_refl _) Ta Tb E (Nat.le_refl _)).
  - specialize (Z a b J).
    exact (unify_ter_step k _ (IHs _ Z) L h a b p I B Sm Ta Tb E (Nat.le_refl _)).
Qed.
End T.

(** Whatever the heap, enough fuel exists. *)
Theorem unify_ter G vp L h t1 t2 : inv G L h -> wf_ty G h t1 -> wf_ty G h t2 ->
  exists n, unify n G vp t1 t2 h <> Loop.
Proof.
  intros I T1 T2. pose proof I as [W [p E]].
  set (Lam := flat_map L (seq 0 (length (ws h)))).
  assert (B : Lb Lam L h).
  { intros w Bw x J. unfold Lam. apply in_flat_map. exists w. split; [|exact J]. apply in_seq. lia. }
  exact (unify_ter_step G vp Lam (mu Lam L h) _ (callok_all G vp Lam _ _) L h t1 t2 p I B (Nat.le_refl _) T1 T2 E (Nat.le_refl _)).
Qed.
