(** C52: polymorphism - what is generalised, and what an instance is *)
From Coq Require Import ZArith List Bool Lia.
From Verif Require Import Unify_Model Unify_Spec Unify_Base Unify_Sol Unify_Norm Unify_Free Unify_Term Poly_Model Poly_Spec Poly_Copy Poly_Gen.
From Verif Require Unify_Props.
Import ListNotations.
Open Scope Z_scope.

(** ** Generalization *)
Lemma held_dec bl isExp h l v : held bl isExp h l v \/ ~ held bl isExp h l v.
Proof.
  unfold held, general. destruct (in_dec Nat.eq_dec v l) as [I|I]; [|right; tauto]. destruct (nth_error (vs h) v) as [c|]; [|right; intros (_ & c & X & _); discriminate].
  destruct (Z_lt_le_dec bl (tvLevel c)) as [L|L]; [|right; intros (_ & c' & [= <-] & X & _); lia].
  destruct (tvOvl c) eqn:EO; [left; split; [auto|]; exists c; split; [auto|]; split; [auto|]; intros (_ & X & _); congruence|].
  destruct (tvImp c && isExp) eqn:EI; [left; split; [auto|]; exists c; split; [auto|]; split; [auto|]; intros (_ & _ & X); congruence|].
  right. intros (_ & c' & [= <-] & _ & X). apply X. auto.
Qed.

Lemma occurs_unbound h : (forall t o (M : means h t o), forall v, occurs v o -> exists c, nth_error (vs h) v = Some c /\ unbound c) /\
  (forall ts os (M : means_all h ts os), forall v, occurs_any v os -> exists c, nth_error (vs h) v = Some c /\ unbound c).
Proof.
  apply means_both.
  - intros v c Ev U u <-. eauto.
  - auto.
  - intros x y ox' oy _ IHx _ IHy v [X|X]; auto.
  - intros ts tn os _ IH v X. cbn [occurs] in X. apply any_ok in X. auto.
  - intros r c os tl _ _ IH _ v X. cbn [occurs] in X. apply any_ok in X. auto.
  - intros v (? & [] & _).
  - intros t1 ts o1 os _ IH _ IHs v (o' & [<-|X] & Y); [auto|]. apply IHs. exists o'. auto.
Qed.

(** The parameters of the type scheme of a type are the variables that occur in it,
    were made deeper than the current binding level, are not overloaded and, for
    an expansive expression, not imperative.  No type changes its meaning; the
    variables that are not generalised can no longer be at this level. *)
Theorem C52_generalization : forall n bl isExp t h o sc h',
  means h t o -> generalization n bl isExp t h = Ok (sc, h') ->
  exists ps, sc = (ps, t) /\ NoDup ps /\
    (forall v, In v ps <-> occurs v o /\ exists c, nth_error (vs h) v = Some c /\
       bl < tvLevel c /\ tvOvl c = false /\ ~ (tvImp c = true /\ isExp = true)) /\
    (forall t1 o1, means h t1 o1 -> means h' t1 o1) /\
    (forall v c, nth_error (vs h) v = Some c -> unbound c -> exists c', nth_error (vs h') v = Some c' /\ unbound c' /\
       tvEqu c' = tvEqu c /\ tvImp c' = tvImp c /\ tvOvl c' = tvOvl c /\
       (occurs v o -> ~ In v ps -> tvLevel c' <= bl) /\ (In v ps \/ ~ occurs v o -> c' = c)).
Proof.
  intros n bl isExp t h o sc h' M H. unfold generalization in H. bok H a h1 E. destruct a as [[fns fs] frs].
  destruct (free_means _ _ _ _ _ _ _ E M) as [K [C1 C2]]. cbn [fvs fst snd] in C1, C2.
  assert (ND : NoDup fs) by (apply C2; constructor).
  assert (OC : forall v, In v fs <-> occurs v o) by (intros v; rewrite C1; cbn; tauto).
  assert (OU : forall tx ox, means h tx ox -> forall v, occurs v ox -> exists c, nth_error (vs h) v = Some c /\ unbound c).
  { intros tx ox Mx. exact (proj1 (occurs_unbound h) _ _ Mx). }
  assert (HU : forall v, In v fs -> exists c, nth_error (vs h1) v = Some c /\ unbound c).
  { intros v I. apply OC in I. destruct (OU _ _ M v I) as (c & Ec & U). exists c. split; [|exact U]. now apply K. }
  destruct (foldL_ok bl isExp fs [] h1 ND (NoDup_nil _) (fun _ _ X => X) HU) as (ps & h2 & E2 & NP & IP & CH).
  rewrite (bind_eq _ _ _ _ _ E2) in H. injection H as <- <-. exists ps. split; [reflexivity|]. split; [exact NP|].
  assert (SAME : forall v c, In v fs -> nth_error (vs h) v = Some c <-> nth_error (vs h1) v = Some c).
  { intros v c I. apply OC in I. destruct (OU _ _ M v I) as (c0 & Ec & U). assert (E1 := proj1 (proj2 K) _ _ Ec U). rewrite Ec, E1. reflexivity. }
  assert (IN : forall v, In v ps <-> occurs v o /\ exists c, nth_error (vs h) v = Some c /\ bl < tvLevel c /\ tvOvl c = false /\ ~ (tvImp c = true /\ isExp = true)).
  { intros v. rewrite IP, <- OC. unfold general. cbn [In]. split.
    - intros [[]|[I (c & Ec & G1 & G2 & G3)]]. split; [exact I|]. exists c. split; [now apply SAME|]. split; [exact G1|]. split; [exact G2|]. intros [X Y]. now rewrite X, Y in G3.
    - intros [I (c & Ec & G1 & G2 & G3)]. right. split; [exact I|]. exists c. split; [now apply SAME|]. split; [exact G1|]. split; [exact G2|].
      destruct (tvImp c), isExp; try reflexivity. destruct G3; auto. }
  split; [exact IN|]. split.
  - intros t1 o1 M1. apply (proj1 (changed_means _ _ _ _ CH (fun v X => HU v (proj1 X)) (held_dec bl isExp h1 fs)) _ _ (proj1 K _ _ M1)).
  - intros v c Ec U. assert (E1 := proj1 (proj2 K) _ _ Ec U). destruct CH as (_ & _ & _ & A4 & A5). destruct (held_dec bl isExp h1 fs v) as [HH|HH].
    + destruct (A5 v c HH E1 U) as (c' & E' & U' & Q1 & Q2 & Q3 & Q4). exists c'. do 5 (split; [assumption|]). split; [lia|].
      intros [I|N]; exfalso; [|apply N, OC, HH]. destruct HH as (_ & c0 & E0 & _ & NG). rewrite E1 in E0. injection E0 as <-. apply IP in I as [[]|(_ & c0 & E0 & G)].
      rewrite E1 in E0. injection E0 as <-. contradiction.
    + exists c. rewrite A4 by exact HH. split; [exact E1|]. split; [exact U|]. do 3 (split; [reflexivity|]). split; [|auto].
      intros O N. destruct (Z_lt_le_dec bl (tvLevel c)) as [L|L]; [|exact L]. exfalso. apply HH. split; [now apply OC|]. exists c. split; [exact E1|]. split; [exact L|].
      intros G. apply N, IP. right. split; [now apply OC|eauto].
Qed.

(** The value restriction: with value polymorphism every variable is imperative
    (mkTypeVar), and nothing is generalised in an expansive expression. *)
Theorem C52_value_restriction : forall n bl t h o sc h',
  means h t o -> (forall v c, nth_error (vs h) v = Some c -> tvImp c = true) ->
  generalization n bl true t h = Ok (sc, h') -> sc = ([], t).
Proof.
  intros n bl t h o sc h' M HI H. destruct (C52_generalization _ _ _ _ _ _ _ _ M H) as (ps & -> & _ & IN & _).
  destruct ps as [|v ps]; [reflexivity|]. exfalso. destruct (proj1 (IN v) (or_introl eq_refl)) as (_ & c & Ec & _ & _ & X). apply X. split; [eauto|auto].
Qed.

(** ** Termination *)
Lemma norm_total n : forall t h o, means h t o -> normType n t h = Loop \/ exists t' h', normType n t h = Ok (t', h').
Proof.
  induction n as [|n IH]; intros t h o M; [now left|]. cbn [normType]. destruct M as [v c E U|v c t o E K M|a b oa ob _ _|ts tn os _|r c os tl E Ms R].
  - right. assert (EG : get_tv v h = Ok (c, h)) by (unfold get_tv; now rewrite E). rewrite (bind_eq _ _ _ _ _ EG).
    destruct (tvKind c) as [| |t] eqn:K; [unfold ret; eauto|unfold ret; eauto|now destruct (U t)].
  - assert (EG : get_tv v h = Ok (c, h)) by (unfold get_tv; now rewrite E). rewrite (bind_eq _ _ _ _ _ EG), K.
    destruct (IH _ _ _ M) as [X|(t' & h' & X)]; [left; unfold bind at 1; now rewrite X|]. right. rewrite (bind_eq _ _ _ _ _ X).
    destruct (norm_means _ _ _ _ _ _ X M) as ((_ & _ & K3 & _) & _ & _). destruct (K3 v c E) as (c' & t2 & E' & _); [intros U; now destruct (U t)|].
    assert (EG' : get_tv v h' = Ok (c', h')) by (unfold get_tv; now rewrite E'). unfold setTvKind. unfold bind at 1. rewrite (bind_eq _ _ _ _ _ EG'). unfold set_tv, ret. eauto.
  - right. unfold ret. eauto.
  - right. unfold ret. eauto.
  - destruct n as [|n]; [left; reflexivity|]. right. cbn [normalizeRecType].
    assert (EG : get_rec r h = Ok (c, h)) by (unfold get_rec; now rewrite E). unfold bind at 1. rewrite (bind_eq _ _ _ _ _ EG).
    unfold row_end in R. destruct (nth_error (ws h) (rho c)) as [k|] eqn:EW; [|contradiction].
    assert (EG' : get_row (rho c) h = Ok (k, h)) by (unfold get_row; now rewrite EW). rewrite (bind_eq _ _ _ _ _ EG').
    destruct k; try contradiction; unfold ret; eauto.
Qed.
Lemma fold_total (f : fvset -> ty -> U fvset) :
  (forall t h a b h' o, f a t h = Ok (b, h') -> means h t o -> keeps h h') ->
  (forall t h a o, means h t o -> f a t h = Loop \/ exists b h', f a t h = Ok (b, h')) ->
  forall ts h a os, means_all h ts os -> foldTs f a ts h = Loop \/ exists b h', foldTs f a ts h = Ok (b, h') /\ keeps h h'.
Proof.
  intros F1 F2. induction ts as [|t ts IH]; intros h a os M; cbn [foldTs].
  - right. exists a, h. split; [reflexivity|apply keeps_refl].
  - inversion M as [|t0 ts0 o os0 M1 Ms]; subst. destruct (F2 t h a o M1) as [X|(b & h1 & X)]; [left; unfold bind; now rewrite X|].
    rewrite (bind_eq _ _ _ _ _ X). pose proof (F1 _ _ _ _ _ _ X M1) as K. destruct (IH h1 b _ (keeps_all _ _ _ _ K Ms)) as [Y|(b2 & h2 & Y & K2)]; [now left|].
    right. exists b2, h2. split; [exact Y|eapply keeps_trans; eauto].
Qed.
Lemma free_total n : forall t h a o, means h t o -> freeVarsType n a t h = Loop \/ exists b h', freeVarsType n a t h = Ok (b, h').
Proof.
  induction n as [|n IH]; intros t h a o M; [now left|]. cbn [freeVarsType].
  destruct (norm_total n t h o M) as [X|(t' & h1 & X)]; [left; unfold bind; now rewrite X|]. rewrite (bind_eq _ _ _ _ _ X).
  destruct (norm_means _ _ _ _ _ _ X M) as (_ & M1 & _). clear X M.
  assert (F1 : forall t h a b h' o, freeVarsType n a t h = Ok (b, h') -> means h t o -> keeps h h') by (intros; eapply free_means; eauto).
  destruct M1 as [v c E U|v c t0 o E K M|x y ox oy Mx My|ts tn os Ms|r c os tl E Ms R].
  - right. destruct a as [[fns fs] frs]. destruct (member v fs); unfold ret; eauto.
  - right. destruct a as [[fns fs] frs]. destruct (member v fs); unfold ret; eauto.
  - destruct (IH x h1 a ox Mx) as [X|(b & h2 & X)]; [left; unfold bind; now rewrite X|]. rewrite (bind_eq _ _ _ _ _ X). apply (IH y h2 b oy). eapply F1; eauto.
  - destruct (fold_total _ F1 IH ts h1 a os Ms) as [X|(b & h2 & X & _)]; [left; unfold bind; now rewrite X|]. rewrite (bind_eq _ _ _ _ _ X). right.
    destruct b as [[fns fs] frs]. destruct (member tn fns); unfold ret; eauto.
  - assert (EG : get_rec r h1 = Ok (c, h1)) by (unfold get_rec; now rewrite E). rewrite (bind_eq _ _ _ _ _ EG).
    destruct (fold_total _ F1 IH _ h1 a os Ms) as [X|(b & h2 & X & K)]; [left; unfold bind; now rewrite X|]. rewrite (bind_eq _ _ _ _ _ X).
    destruct n as [|n]; [now left|]. cbn [freeVarsRowType]. destruct K as (_ & _ & _ & _ & EW & _). unfold row_end in R.
    destruct (nth_error (ws h1) (rho c)) as [k|] eqn:E2; [|contradiction].
    assert (EG' : get_row (rho c) h2 = Ok (k, h2)) by (unfold get_row; rewrite EW; now rewrite E2). rewrite (bind_eq _ _ _ _ _ EG'). right.
    destruct k; try contradiction; [unfold ret; eauto|]. destruct b as [[fns fs] frs]. destruct (member (rho c) frs); unfold ret; eauto.
Qed.

(** In every heap the type checker may be in (the consistent heaps that unify
    keeps), generalization of such a type ends and gives a scheme. *)
Theorem C52_ends : forall G vp L h t o bl isExp, consistent G vp L h -> wf_ty G h t -> means h t o ->
  exists N, forall n, (N <= n)%nat -> exists sc h', generalization n bl isExp t h = Ok (sc, h').
Proof.
  intros G vp L h t o bl isExp C T M. apply Unify_Props.consistent_inv in C as I. destruct I as [W [p Ep]].
  assert (Gd : good G L p h) by (split; [split; eauto|exact Ep]).
  destruct (proj1 (freeVars_ter G L p (S (tsize (den p t)))) h t ([], [], []) Gd T ltac:(lia)) as [N HN]. exists N. intros n Hn.
  assert (EN := freeVarsType_le N n ([], [], []) t Hn h HN).
  destruct (free_total n t h ([], [], []) o M) as [X|(b & h1 & X)]; [congruence|]. unfold generalization. rewrite (bind_eq _ _ _ _ _ X). destruct b as [[fns fs] frs].
  destruct (free_means _ _ _ _ _ _ _ X M) as [K [C1 C2]]. cbn [fvs fst snd] in C1, C2.
  destruct (foldL_ok bl isExp fs [] h1) as (ps & h2 & E2 & _).
  - apply C2. constructor.
  - constructor.
  - auto.
  - intros v I. apply C1 in I as [[]|I]. destruct (proj1 (occurs_unbound h) _ _ M v I) as (c & Ec & U). exists c. split; [|exact U]. now apply K.
  - rewrite (bind_eq _ _ _ _ _ E2). unfold ret. eauto.
Qed.

(** ** Specialization *)
Lemma rename_id h : (forall t o (M : means h t o), forall s, (forall v, s v = v) -> rename s o = o) /\
  (forall ts os (M : means_all h ts os), forall s, (forall v, s v = v) -> map (rename s) os = os).
Proof.
  apply means_both; cbn [rename map]; intros; auto; f_equal; auto.
Qed.
Lemma copyType_le n : forall m, (n <= m)%nat -> forall bvs t, le (copyType n bvs t) (copyType m bvs t).
Proof.
  induction n as [|n IH]; intros m Hm bvs t h H; [now destruct H|]. destruct m as [|m]; [lia|]. assert (K : (n <= m)%nat) by lia.
  assert (BL : forall A B (m1 m2 : U A) (k1 k2 : A -> U B) h, le m1 m2 -> (forall a, le (k1 a) (k2 a)) -> bind m1 k1 h <> Loop -> bind m2 k2 h = bind m1 k1 h).
  { intros A B m1 m2 k1 k2 h0 L1 L2 N. unfold bind in *. destruct (m1 h0) as [[a h1]|r| |] eqn:E; try (rewrite (L1 h0) by congruence; rewrite E; try reflexivity; now apply L2); congruence. }
  assert (LR : forall A (x : U A), le x x) by (intros A x h0 _; reflexivity).
  assert (TL : forall ts bvs, le (copyTypeList (copyType n) bvs ts) (copyTypeList (copyType m) bvs ts)).
  { induction ts as [|t0 ts IHt]; intros b h0 N; [reflexivity|]. cbn [copyTypeList] in *. apply BL; [apply IH, K| |exact N]. intros [[b1 s1] c1] h1 N1. apply BL; [apply IHt|intros; apply LR|exact N1]. }
  assert (FL : forall fs bvs, le (copyFields (copyType n) bvs fs) (copyFields (copyType m) bvs fs)).
  { induction fs as [|[l t0] fs IHt]; intros b h0 N; [reflexivity|]. cbn [copyFields] in *. apply BL; [apply IH, K| |exact N]. intros [[b1 s1] c1] h1 N1. apply BL; [apply IHt|intros; apply LR|exact N1]. }
  cbn [copyType] in *. destruct t as [v|a b|ts tn|r].
  - destruct (lookup v bvs); [reflexivity|]. apply BL; [apply LR| |exact H]. intros c h1 N1. destruct (tvKind c); try reflexivity. apply BL; [apply IH, K|intros; apply LR|exact N1].
  - apply BL; [apply IH, K| |exact H]. intros [[b1 s1] c1] h1 N1. apply BL; [apply IH, K|intros; apply LR|exact N1].
  - apply BL; [apply TL|intros; apply LR|exact H].
  - apply BL; [apply LR| |exact H]. intros c h1 N1. apply BL; [apply FL|intros; apply LR|exact N1].
Qed.
Lemma specialization_le n m vp bl sc h : (n <= m)%nat -> specialization n vp bl sc h <> Loop -> specialization m vp bl sc h = specialization n vp bl sc h.
Proof.
  intros Hm H. destruct sc as [ps t]. unfold specialization in *. destruct ps as [|p ps]; [reflexivity|]. unfold bind in *.
  destruct (mapUE vp bl (p :: ps) h) as [[ue h1]|r| |]; try reflexivity. destruct (copyType n ue t h1) as [[[[x y] z] h2]|r| |] eqn:E.
  - rewrite (copyType_le n m Hm ue t h1) by congruence. now rewrite E.
  - rewrite (copyType_le n m Hm ue t h1) by congruence. now rewrite E.
  - rewrite (copyType_le n m Hm ue t h1) by congruence. now rewrite E.
  - congruence.
Qed.

(** What was there is still there: no cell of [h] has changed. *)
Definition grown (h h' : heap) : Prop :=
  (forall v c, nth_error (vs h) v = Some c -> nth_error (vs h') v = Some c) /\
  (forall r c, nth_error (rs h) r = Some c -> nth_error (rs h') r = Some c) /\ ws h' = ws h.

(** An instance of a type scheme is its body with a fresh variable for each
    parameter, of the same kind and at the current level; other variables are
    shared, and nothing else changes. *)
Theorem C52_specialization : forall vp bl ps t h o,
  means h t o -> NoDup ps -> (forall v, In v ps -> exists c, nth_error (vs h) v = Some c /\ unbound c) ->
  exists N, forall n, (N <= n)%nat -> exists fs t' h', specialization n vp bl (ps, t) h = Ok (t', h') /\
    length fs = length ps /\ NoDup fs /\ (forall f, In f fs <-> (length (vs h) <= f < length (vs h'))%nat) /\
    Forall2 (fun v f => exists c, nth_error (vs h) v = Some c /\
      nth_error (vs h') f = Some (mkTv NoLink (tvEqu c) (vp || tvImp c) (tvOvl c) bl)) ps fs /\
    means h' t' (rename (replace ps fs) o) /\ grown h h'.
Proof.
  intros vp bl ps t h o M ND HU. destruct ps as [|p0 ps0] eqn:EP.
  - exists 0%nat. intros n _. exists [], t, h. split; [reflexivity|]. split; [reflexivity|]. split; [constructor|]. split; [intros f; cbn; lia|]. split; [constructor|].
    split; [|apply extends_refl]. replace (rename (replace [] []) o) with o; [exact M|]. clear ND HU. symmetry.
    apply (proj1 (rename_id h)) with (t := t); [exact M|reflexivity].
  - rewrite <- EP in *. set (fs := seq (length (vs h)) (length ps)).
    destruct (mapUE_ok vp bl h ps []) as (news & EU & FN); [intros v I; destruct (HU v I) as (c & E & _); eauto|].
    replace (addvars h []) with h in EU by (destruct h; unfold addvars; cbn; now rewrite app_nil_r). cbn [length app] in EU. rewrite Nat.add_0_r in EU. fold fs in EU.
    set (h1 := addvars h news) in *. assert (LF : length fs = length ps) by (unfold fs; now rewrite seq_length).
    assert (LN : length news = length ps) by (clear - FN; induction FN; cbn; auto).
    assert (M1 : means h1 t o) by (eapply means_ext; [apply addvars_ext|exact M]).
    destruct (proj1 (copy_both (replace ps fs) h1) _ _ M1) as (N & HN). exists N. intros n Hn.
    assert (NEW : forall i c', nth_error news i = Some c' -> nth_error (vs h1) (length (vs h) + i) = Some c').
    { intros i c' E. cbn. rewrite nth_error_app2 by lia. replace (length (vs h) + i - length (vs h))%nat with i by lia. exact E. }
    assert (AT : Forall2 (fun v f => exists c, nth_error (vs h) v = Some c /\ nth_error (vs h1) f = Some (mkTv NoLink (tvEqu c) (vp || tvImp c) (tvOvl c) bl)) ps fs).
    { unfold fs. clear - FN NEW. clearbody h1. assert (G : forall i, (forall j c', nth_error news j = Some c' -> nth_error (vs h1) (length (vs h) + (i + j)) = Some c') ->
        Forall2 (fun v f => exists c, nth_error (vs h) v = Some c /\ nth_error (vs h1) f = Some (mkTv NoLink (tvEqu c) (vp || tvImp c) (tvOvl c) bl)) ps (seq (length (vs h) + i) (length ps))).
      { clear NEW. induction FN as [|v c' ps news (c & E & R) FN IH]; intros i H; cbn [length seq]; constructor.
        - exists c. split; [exact E|]. unfold refreshed in R. rewrite <- R. specialize (H 0%nat c' eq_refl). now rewrite Nat.add_0_r in H.
        - rewrite <- Nat.add_succ_r. apply IH. intros j d E'. specialize (H (S j) d E'). replace (S i + j)%nat with (i + S j)%nat by lia. exact H. }
      specialize (G 0%nat). rewrite Nat.add_0_r in G. now apply G. }
    assert (HC : copied (replace ps fs) (addrecs h1 []) (combine ps (map VARt fs))).
    { rewrite addrecs_nil. split.
      - intros v t' E. rewrite lookup_combine in E by auto. destruct (in_dec Nat.eq_dec v ps) as [I|I]; [|discriminate]. injection E as <-.
        destruct (HU v I) as (c & Ec & U). exists (OVar v). split; [eapply means_ext; [apply addvars_ext|]; econstructor; eauto|]. cbn [rename].
        assert (exists c', nth_error (vs h1) (replace ps fs v) = Some c' /\ unbound c') as (c' & E' & U').
        { assert (J := replace_in ps fs v LF I). revert J. generalize (replace ps fs v). intros f J. clear - AT J. induction AT as [|a b la lb (c & _ & E) F IH]; [destruct J|].
          destruct J as [<-|J]; [|auto]. eexists. split; [exact E|]. intros tt0. cbn. discriminate. }
        econstructor; eauto.
      - intros v N0. rewrite lookup_combine by auto. destruct (in_dec Nat.eq_dec v ps) as [I|I]; [discriminate|]. destruct N0. now apply replace_out. }
    destruct (HN n [] (combine ps (map VARt fs)) Hn HC) as (y & bvs' & sh & ct & E1 & _ & _ & M2). rewrite addrecs_nil in E1. cbn [app] in *.
    exists fs, ct, (addrecs h1 y). split; [|split; [exact LF|split; [apply seq_NoDup|split; [|split; [exact AT|split; [exact M2|]]]]]].
    + unfold specialization. rewrite EP. rewrite <- EP. rewrite (bind_eq _ _ _ _ _ EU). rewrite (bind_eq _ _ _ _ _ E1). reflexivity.
    + intros f. unfold fs. rewrite in_seq. cbn. rewrite app_length, LN. lia.
    + exact (extends_trans _ _ _ (addvars_ext h news) (addrecs_ext h1 y)).
Qed.

(** Two instances of a scheme have no fresh variable in common. *)
Theorem C52_independent : forall vp bl ps t h o, means h t o -> NoDup ps -> (forall v, In v ps -> exists c, nth_error (vs h) v = Some c /\ unbound c) ->
  exists N, forall n, (N <= n)%nat -> exists fs1 fs2 t1 t2 h1 h2,
    specialization n vp bl (ps, t) h = Ok (t1, h1) /\ specialization n vp bl (ps, t) h1 = Ok (t2, h2) /\
    means h2 t1 (rename (replace ps fs1) o) /\ means h2 t2 (rename (replace ps fs2) o) /\ means h2 t o /\
    (forall f, In f fs1 -> ~ In f fs2) /\ (forall v, In v ps -> In (replace ps fs1 v) fs1 /\ In (replace ps fs2 v) fs2).
Proof.
  intros vp bl ps t h o M ND HU. destruct (C52_specialization vp bl ps t h o M ND HU) as [N1 H1].
  destruct (H1 N1 (le_n _)) as (fs1 & t1 & h1 & E1 & L1 & D1 & I1 & _ & M1 & G1).
  assert (HU1 : forall v, In v ps -> exists c, nth_error (vs h1) v = Some c /\ unbound c) by (intros v I; destruct (HU v I) as (c & E & U); exists c; split; [now apply G1|exact U]).
  destruct (C52_specialization vp bl ps t h1 o (means_ext _ _ _ _ G1 M) ND HU1) as [N2 H2]. exists (N1 + N2)%nat. intros n Hn.
  destruct (H1 n ltac:(lia)) as (fs1' & t1' & h1' & E1' & L1' & D1' & I1' & _ & M1' & G1').
  assert (SAME : (t1', h1') = (t1, h1)).
  { assert (X : specialization n vp bl (ps, t) h = specialization N1 vp bl (ps, t) h) by (apply specialization_le; [lia|congruence]). congruence. }
  injection SAME as -> ->. destruct (H2 n ltac:(lia)) as (fs2 & t2 & h2 & E2 & L2 & D2 & I2 & _ & M2 & G2).
  exists fs1', fs2, t1, t2, h1, h2. split; [exact E1'|]. split; [exact E2|]. split; [exact (means_ext _ _ _ _ G2 M1')|]. split; [exact M2|].
  split; [exact (means_ext _ _ _ _ (extends_trans _ _ _ G1 G2) M)|]. split.
  - intros f J1 J2. apply I1' in J1. apply I2 in J2. lia.
  - intros v I. split; apply replace_in; auto.
Qed.

(** ** Examples: {a : int, b : 'b list} -> ''a -> 'b, where ''a is at level 1 and
    'b at level 2 *)
Definition t52 : ty := ARROWt (RECt 1) (ARROWt (VARt 0) (VARt 1)).
Definition o52 (v : nat) : otree :=
  OArrow (ORec [Unify_Props.la; Unify_Props.lb] [OCon [] 0; OCon [OVar v] 2] None) (OArrow (OVar 0) (OVar v)).
Lemma means52 : means Unify_Props.h0 t52 (o52 1).
Proof.
  assert (V0 : means Unify_Props.h0 (VARt 0) (OVar 0)) by (eapply M_unbound; [reflexivity|intros t; discriminate]).
  assert (V1 : means Unify_Props.h0 (VARt 1) (OVar 1)) by (eapply M_unbound; [reflexivity|intros t; discriminate]).
  unfold t52, o52. apply M_arrow; [|apply M_arrow; [exact V0|exact V1]].
  apply (M_rec Unify_Props.h0 1 (mkRec [(Unify_Props.la, CONt [] 0); (Unify_Props.lb, CONt [VARt 1] 2)] 1) [OCon [] 0; OCon [OVar 1] 2] None); [reflexivity| |reflexivity].
  cbn [map snd fields]. apply Ms_cons; [apply M_con, Ms_nil|]. apply Ms_cons; [|apply Ms_nil]. apply M_con, Ms_cons; [exact V1|apply Ms_nil].
Qed.

Example C52_generalization_example : means Unify_Props.h0 t52 (o52 1) /\
  generalization 20 1 false t52 Unify_Props.h0 = Ok (([1%nat], t52), Unify_Props.h0).
Proof. split; [exact means52|]. vm_compute. reflexivity. Qed.

(* the identity as the value of an expansive expression, at level 2 > 1 *)
Example C52_value_restriction_example :
  let h := mkHeap [mkTv NoLink false true false 2; mkTv (LinkTo (VARt 0)) false true false 2] [] [] in
  means h (ARROWt (VARt 0) (VARt 1)) (OArrow (OVar 0) (OVar 0)) /\
  (forall v c, nth_error (vs h) v = Some c -> tvImp c = true) /\
  generalization 20 1 true (ARROWt (VARt 0) (VARt 1)) h =
    Ok (([], ARROWt (VARt 0) (VARt 1)), mkHeap [mkTv NoLink false true false 1; mkTv (LinkTo (VARt 0)) false true false 2] [] []).
Proof.
  split; [|split].
  - assert (V0 : forall h c, nth_error (vs h) 0 = Some c -> tvKind c = NoLink -> means h (VARt 0) (OVar 0)) by (intros h c E K; eapply M_unbound; [exact E|intros t; rewrite K; discriminate]).
    apply M_arrow; [eapply V0; reflexivity|]. eapply M_link; [reflexivity|reflexivity|]. eapply V0; reflexivity.
  - intros [|[|[|v]]] c E; cbn in E; try discriminate; injection E as <-; reflexivity.
  - vm_compute. reflexivity.
Qed.

Example C52_ends_example : consistent Unify_Props.G0 true Unify_Props.L0 Unify_Props.h0 /\
  wf_ty Unify_Props.G0 Unify_Props.h0 t52 /\ means Unify_Props.h0 t52 (o52 1).
Proof. split; [exact (proj1 Unify_Props.ok0)|]. split; [cbn; repeat split; lia|exact means52]. Qed.

Example C52_specialization_example : means Unify_Props.h0 t52 (o52 1) /\ NoDup [1%nat] /\
  (forall v, In v [1%nat] -> exists c, nth_error (vs Unify_Props.h0) v = Some c /\ unbound c) /\
  rename (replace [1%nat] [2%nat]) (o52 1) = o52 2 /\
  exists h', specialization 20 false 5 ([1%nat], t52) Unify_Props.h0 = Ok (ARROWt (RECt 2) (ARROWt (VARt 0) (VARt 2)), h') /\
    nth_error (vs h') 2 = Some (mkTv NoLink false false false 5) /\
    nth_error (rs h') 2 = Some (mkRec [(Unify_Props.la, CONt [] 0); (Unify_Props.lb, CONt [VARt 2] 2)] 1).
Proof.
  split; [exact means52|]. split; [constructor; [intros []|constructor]|]. split; [|split; [reflexivity|]].
  - intros v [<-|[]]. eexists. split; [reflexivity|]. intros t. discriminate.
  - eexists. split; [vm_compute; reflexivity|]. split; reflexivity.
Qed.

Example C52_independent_example :
  let two : U (ty * ty) := do t1 <- specialization 20 false 5 ([1%nat], t52); do t2 <- specialization 20 false 5 ([1%nat], t52); ret (t1, t2) in
  match two Unify_Props.h0 with
  | Ok (ts, _) => ts = (ARROWt (RECt 2) (ARROWt (VARt 0) (VARt 2)), ARROWt (RECt 3) (ARROWt (VARt 0) (VARt 3)))
  | _ => False
  end.
Proof. vm_compute. reflexivity. Qed.

Print Assumptions C52_generalization.
Print Assumptions C52_value_restriction.
Print Assumptions C52_ends.
Print Assumptions C52_specialization.
Print Assumptions C52_independent.
