(** Proofs for C52: generalization *)
From Coq Require Import ZArith List Bool Lia.
From Verif Require Import Unify_Model Unify_Base Unify_Norm Poly_Model Poly_Spec Poly_Copy.
Import ListNotations.
Open Scope Z_scope.

Fixpoint osize (o : otree) : nat :=
  match o with
  | OVar _ => 1
  | OArrow a b => S (osize a + osize b)
  | OCon os _ => S (list_sum (map osize os))
  | ORec _ os _ => S (list_sum (map osize os))
  end.

(** ** Path compression keeps meanings *)
Definition head (h : heap) (t : ty) : Prop :=
  match t with VARt v => exists c, nth_error (vs h) v = Some c /\ unbound c | _ => True end.
Definition relink (h : heap) (v : nat) (c : tvrec) (t : ty) : heap :=
  mkHeap (set_nth (vs h) v (mkTv (LinkTo t) (tvEqu c) (tvImp c) (tvOvl c) (tvLevel c))) (rs h) (ws h).

  Lemma relink_same h v c t : nth_error (vs h) v = Some c -> nth_error (vs (relink h v c t)) v = Some (mkTv (LinkTo t) (tvEqu c) (tvImp c) (tvOvl c) (tvLevel c)).
  Proof. intros E. cbn. apply set_nth_same. apply nth_error_Some. congruence. Qed.
  Lemma relink_other h v c t u : u <> v -> nth_error (vs (relink h v c t)) u = nth_error (vs h) u.
  Proof. intros N. cbn. apply set_nth_other. congruence. Qed.
  Lemma compress h v c t0 t o : nth_error (vs h) v = Some c -> tvKind c = LinkTo t0 -> means h (VARt v) o -> means h t o -> head h t -> forall n, (forall t1 o1 (M : means h t1 o1), (osize o1 <= n)%nat -> means (relink h v c t) t1 o1) /\
    (forall ts os (M : means_all h ts os), (list_sum (map osize os) <= n)%nat -> means_all (relink h v c t) ts os).
  Proof.
    intros E K MV MT HH.
    induction n as [n IH] using lt_wf_ind. apply means_both.
    - intros u cu Eu U _. destruct (Nat.eq_dec u v) as [->|N]; [rewrite E in Eu; injection Eu as <-; now destruct (U t0)|].
      eapply M_unbound; [rewrite relink_other by exact N; exact Eu|exact U].
    - intros u cu tu ou Eu Ku M IHM Hn. destruct (Nat.eq_dec u v) as [->|N].
      + assert (ou = o) as -> by (eapply means_det; [eapply M_link; eauto|exact MV]).
        eapply M_link; [apply relink_same; exact E|reflexivity|]. clear IHM M. destruct MT as [w cw Ew Uw|w cw tw ow Ew Kw Mw|a b oa ob Ma Mb|ts tn os Ms|r cr os tl Er Ms R].
        * destruct (Nat.eq_dec w v) as [->|N]; [rewrite E in Ew; injection Ew as <-; now destruct (Uw t0)|].
          eapply M_unbound; [rewrite relink_other by exact N; exact Ew|exact Uw].
        * destruct HH as (cw' & Ew' & Uw). rewrite Ew in Ew'. injection Ew' as <-. now destruct (Uw tw).
        * cbn [osize] in Hn. constructor; [apply (proj1 (IH (osize oa) ltac:(lia)) _ _ Ma); lia|apply (proj1 (IH (osize ob) ltac:(lia)) _ _ Mb); lia].
        * cbn [osize] in Hn. constructor. apply (proj2 (IH (list_sum (map osize os)) ltac:(lia)) _ _ Ms). lia.
        * cbn [osize] in Hn. eapply M_rec; [exact Er| |exact R]. apply (proj2 (IH (list_sum (map osize os)) ltac:(lia)) _ _ Ms). lia.
      + eapply M_link; [rewrite relink_other by exact N; exact Eu|exact Ku|]. auto.
    - intros a b oa ob Ma IHa Mb IHb Hn. cbn [osize] in Hn. constructor; [apply IHa|apply IHb]; lia.
    - intros ts tn os Ms IHs Hn. cbn [osize] in Hn. constructor. apply IHs. lia.
    - intros r cr os tl Er Ms IHs R Hn. cbn [osize] in Hn. eapply M_rec; [exact Er| |exact R]. apply IHs. lia.
    - constructor.
    - intros t1 ts o1 os M IHM Ms IHs Hn. cbn [map list_sum fold_right] in Hn. change (fold_right Nat.add 0%nat (map osize os)) with (list_sum (map osize os)) in Hn.
      constructor; [apply IHM|apply IHs]; lia.
  Qed.

(** [keeps h h']: meanings are kept, and everything but links *)
Definition keeps (h h' : heap) : Prop :=
  (forall t o, means h t o -> means h' t o) /\
  (forall v c, nth_error (vs h) v = Some c -> unbound c -> nth_error (vs h') v = Some c) /\
  (forall v c, nth_error (vs h) v = Some c -> ~ unbound c -> exists c' t, nth_error (vs h') v = Some c' /\ tvKind c' = LinkTo t) /\
  rs h' = rs h /\ ws h' = ws h /\ length (vs h') = length (vs h).
Lemma keeps_refl h : keeps h h.
Proof.
  split; [auto|]. split; [auto|]. split; [|auto]. intros v c E N. exists c. destruct (tvKind c) as [| |t] eqn:K; [| |eauto]; destruct N; intros t; congruence.
Qed.
Lemma keeps_trans a b c : keeps a b -> keeps b c -> keeps a c.
Proof.
  intros (A1 & A2 & A3 & A4 & A5 & A6) (B1 & B2 & B3 & B4 & B5 & B6). split; [auto|]. split; [auto|]. split; [|repeat split; congruence].
  intros v cc E N. destruct (A3 v cc E N) as (c1 & t1 & E1 & K1). apply (B3 v c1 E1). intros U. now destruct (U t1).
Qed.
Lemma keeps_all h h' ts os : keeps h h' -> means_all h ts os -> means_all h' ts os.
Proof. intros (A & _) M. induction M; constructor; auto. Qed.

Lemma norm_means n : forall t h t' h' o, normType n t h = Ok (t', h') -> means h t o ->
  keeps h h' /\ means h' t' o /\ head h' t'.
Proof.
  induction n as [|n IH]; intros t h t' h' o H M; [discriminate|]. cbn [normType] in H. destruct t as [v|a b|ts tn|r].
  - bok H c h1 E1. apply get_tv_ok in E1 as [-> E1]. inversion M as [v' c' E' U|v' c' t1 o' E' K' M1| | |]; subst; rewrite E1 in E'; injection E' as <-.
    + assert (H' : ret (VARt v) h = Ok (t', h')) by (destruct (tvKind c) as [| |tx] eqn:K; [exact H|exact H|now destruct (U tx)]).
      injection H' as <- <-. split; [apply keeps_refl|]. split; [exact M|]. cbn. eauto.
    + rewrite K' in H. bok H t2 h1 E. destruct (IH _ _ _ _ _ E M1) as (KE & M2 & HD). bok H u h2 E2. injection H as <- <-.
      unfold setTvKind in E2. bok E2 c1 h3 E3. apply get_tv_ok in E3 as [-> E3]. unfold set_tv in E2. injection E2 as _ <-.
      assert (exists t3, tvKind c1 = LinkTo t3) as [t3 K3].
      { destruct KE as (_ & _ & X & _). destruct (X v c E1) as (c2 & t3 & E4 & K4); [intros U; now destruct (U t1)|]. rewrite E3 in E4. injection E4 as <-. eauto. }
      fold (relink h1 v c1 t2). pose proof (proj1 KE _ _ M) as MV.
      assert (KM : forall tx ox, means h1 tx ox -> means (relink h1 v c1 t2) tx ox).
      { intros tx ox Mx. exact (proj1 (compress h1 v c1 t3 t2 o E3 K3 MV M2 HD (osize ox)) _ _ Mx (le_n _)). }
      assert (KR : keeps h1 (relink h1 v c1 t2)).
      { split; [exact KM|]. split; [|split; [|split; [reflexivity|split; [reflexivity|cbn; now rewrite set_nth_len]]]].
        - intros u0 cu Eu Uu. destruct (Nat.eq_dec u0 v) as [->|N]; [rewrite E3 in Eu; injection Eu as <-; now destruct (Uu t3)|]. now rewrite relink_other.
        - intros u0 cu Eu Nu. destruct (Nat.eq_dec u0 v) as [->|N]; [eexists _, _; split; [now apply relink_same|reflexivity]|].
          rewrite relink_other by exact N. exists cu. destruct (tvKind cu) as [| |tx] eqn:Ku; [| |eauto]; destruct Nu; intros tx; congruence. }
      split; [exact (keeps_trans _ _ _ KE KR)|]. split; [now apply KM|]. destruct t2 as [w| | |]; cbn in HD |- *; auto.
      destruct HD as (cw & Ew & Uw). exists cw. split; [|exact Uw]. destruct (Nat.eq_dec w v) as [->|N]; [rewrite E3 in Ew; injection Ew as <-; now destruct (Uw t3)|].
      rewrite set_nth_other by congruence. exact Ew.
  - injection H as <- <-. split; [apply keeps_refl|]. split; [exact M|exact I].
  - injection H as <- <-. split; [apply keeps_refl|]. split; [exact M|exact I].
  - bok H u h1 E. injection H as <- <-. inversion M as [| | | |r' c os tl Er Ms R]; subst.
    assert (h1 = h) as ->.
    { destruct n as [|n]; [discriminate|]. cbn [normalizeRecType] in E. bok E c1 h2 E1. apply get_rec_ok in E1 as [-> E1]. rewrite Er in E1. injection E1 as <-.
      bok E k h2 E2. apply get_row_ok in E2 as [-> E2]. unfold row_end in R. rewrite E2 in R. destruct k; try contradiction; now injection E as _ <-. }
    split; [apply keeps_refl|]. split; [exact M|exact I].
Qed.

(** ** The free variables *)
Definition fvs (a : fvset) : list nat := snd (fst a).
Definition collects (a b : fvset) (P : nat -> Prop) : Prop :=
  (forall v, In v (fvs b) <-> In v (fvs a) \/ P v) /\ (NoDup (fvs a) -> NoDup (fvs b)).
Lemma collects_trans a b c P Q R : collects a b P -> collects b c Q -> (forall v, R v <-> P v \/ Q v) -> collects a c R.
Proof. intros [A1 A2] [B1 B2] H. split; [|auto]. intros v. rewrite B1, A1, H. tauto. Qed.
Definition occurs_any (v : nat) (os : list otree) : Prop := exists o, In o os /\ occurs v o.
Lemma any_ok v os : (fix any os := match os with [] => False | o :: os' => occurs v o \/ any os' end) os <-> occurs_any v os.
Proof.
  unfold occurs_any. induction os as [|o os IH]; [split; [tauto|intros (? & [] & _)]|]. rewrite IH. split.
  - intros [H|(o' & H1 & H2)]; [exists o; split; [now left|auto]|exists o'; split; [now right|auto]].
  - intros (o' & [<-|H1] & H2); eauto.
Qed.
Lemma member_spec x l : member x l = true <-> In x l.
Proof. unfold member. rewrite existsb_exists. split; [intros (y & H & E); apply Nat.eqb_eq in E; now subst|intros H; exists x; split; [auto|apply Nat.eqb_refl]]. Qed.

Lemma fold_means (f : fvset -> ty -> U fvset) :
  (forall t h a b h' o, f a t h = Ok (b, h') -> means h t o -> keeps h h' /\ collects a b (fun v => occurs v o)) ->
  forall ts h a b h' os, foldTs f a ts h = Ok (b, h') -> means_all h ts os -> keeps h h' /\ collects a b (fun v => occurs_any v os).
Proof.
  intros F. induction ts as [|t ts IH]; intros h a b h' os H M; cbn [foldTs] in H.
  - injection H as <- <-. inversion M; subst. split; [apply keeps_refl|]. split; [|auto]. intros v. unfold occurs_any. split; [auto|]. intros [H|(? & [] & _)]; auto.
  - bok H a1 h1 E. inversion M as [|t0 ts0 o os0 M1 Ms]; subst. destruct (F _ _ _ _ _ _ E M1) as [K1 C1].
    destruct (IH _ _ _ _ _ H (keeps_all _ _ _ _ K1 Ms)) as [K2 C2]. split; [exact (keeps_trans _ _ _ K1 K2)|].
    eapply collects_trans; eauto. intros v. cbn beta. unfold occurs_any. split.
    + intros (o' & [<-|H1] & H2); eauto.
    + intros [H1|(o' & H1 & H2)]; [exists o; split; [now left|auto]|exists o'; split; [now right|auto]].
Qed.
Lemma free_means n : forall t h a b h' o, freeVarsType n a t h = Ok (b, h') -> means h t o -> keeps h h' /\ collects a b (fun v => occurs v o).
Proof.
  induction n as [|n IH]; intros t h a b h' o H M; [discriminate|]. cbn [freeVarsType] in H. bok H t' h1 E.
  destruct (norm_means _ _ _ _ _ _ E M) as (K1 & M1 & HD). clear E M.
  enough (K2 : keeps h1 h' /\ collects a b (fun v => occurs v o)) by (destruct K2; split; [eapply keeps_trans; eauto|auto]). clear h K1.
  inversion M1 as [v c Ev U|v c tx ox Ev Kv Mx|x y ox oy Mx My|ts tn os Ms|r c os tl Er Ms R]; subst.
  - destruct a as [[fns fs] frs]. destruct (member v fs) eqn:EM.
    + injection H as <- <-. split; [apply keeps_refl|]. split; [|auto]. intros u. cbn. apply member_spec in EM. split; [auto|]. intros [?|<-]; auto.
    + injection H as <- <-. split; [apply keeps_refl|]. split.
      * intros u. cbn. tauto.
      * cbn. intros N. constructor; [|exact N]. intros X. apply member_spec in X. congruence.
  - destruct HD as (c' & E' & U). rewrite Ev in E'. injection E' as <-. now destruct (U tx).
  - bok H a1 h2 E1. destruct (IH _ _ _ _ _ _ E1 Mx) as [K1 C1]. destruct (IH _ _ _ _ _ _ H (proj1 K1 _ _ My)) as [K2 C2].
    split; [exact (keeps_trans _ _ _ K1 K2)|]. eapply collects_trans; eauto. intros v. reflexivity.
  - bok H a1 h2 E1. destruct (fold_means (freeVarsType n) (fun t h a b h' o => IH t h a b h' o) _ _ _ _ _ _ E1 Ms) as [K1 C1]. destruct a1 as [[fns fs] frs].
    assert (b = (fns, fs, frs) \/ b = (tn :: fns, fs, frs)) as HB by (destruct (member tn fns); injection H as <- <-; auto).
    assert (h' = h2) as -> by (destruct (member tn fns); injection H as _ <-; auto).
    split; [exact K1|]. destruct C1 as [C1 C2]. split; [|destruct HB as [-> | ->]; exact C2].
    intros v. cbn [occurs]. rewrite any_ok. destruct HB as [-> | ->]; apply C1.
  - bok H c1 h2 E1. apply get_rec_ok in E1 as [-> E1]. rewrite Er in E1. injection E1 as <-. bok H a1 h2 E1.
    destruct (fold_means (freeVarsType n) (fun t h a b h' o => IH t h a b h' o) _ _ _ _ _ _ E1 Ms) as [K1 C1].
    assert (HB : h' = h2 /\ fvs b = fvs a1).
    { destruct n as [|n]; [discriminate|]. cbn [freeVarsRowType] in H. bok H k h3 E2. apply get_row_ok in E2 as [-> E2].
      destruct K1 as (_ & _ & _ & _ & EW & _). unfold row_end in R. rewrite EW in E2. rewrite E2 in R. destruct k; try contradiction.
      - injection H as <- <-. auto.
      - destruct a1 as [[fns fs] frs]. destruct (member (rho c) frs); injection H as <- <-; auto. }
    destruct HB as [-> HB]. split; [exact K1|]. destruct C1 as [C1 C2]. split; [|now rewrite HB].
    intros v. cbn [occurs]. rewrite HB, any_ok. apply C1.
Qed.

(** ** The parameters *)
Definition changed (h h' : heap) (P : nat -> Prop) (bl : Z) : Prop :=
  rs h' = rs h /\ ws h' = ws h /\ length (vs h') = length (vs h) /\
  (forall v, ~ P v -> nth_error (vs h') v = nth_error (vs h) v) /\
  (forall v c, P v -> nth_error (vs h) v = Some c -> unbound c ->
     exists c', nth_error (vs h') v = Some c' /\ unbound c' /\ tvEqu c' = tvEqu c /\ tvImp c' = tvImp c /\ tvOvl c' = tvOvl c /\ tvLevel c' = bl).
(** a variable is generalised *)
Definition general (bl : Z) (isExp : bool) (c : tvrec) : Prop := bl < tvLevel c /\ tvOvl c = false /\ (tvImp c && isExp) = false.
(** its level is lowered *)
Definition held (bl : Z) (isExp : bool) (h : heap) (l : list nat) (v : nat) : Prop :=
  In v l /\ exists c, nth_error (vs h) v = Some c /\ bl < tvLevel c /\ ~ general bl isExp c.
Definition lowered (bl : Z) (c : tvrec) (k : tvkind) : tvrec := mkTv k (tvEqu c) (tvImp c) (tvOvl c) bl.

Lemma parameter_ok bl isExp v ps h c : nth_error (vs h) v = Some c -> unbound c -> ~ In v ps ->
  (general bl isExp c /\ parameter bl isExp v ps h = Ok (v :: ps, h)) \/
  (~ general bl isExp c /\ tvLevel c <= bl /\ parameter bl isExp v ps h = Ok (ps, h)) \/
  (~ general bl isExp c /\ bl < tvLevel c /\ exists k, (k = NoLink \/ k = Explicit) /\
     parameter bl isExp v ps h = Ok (ps, mkHeap (set_nth (vs h) v (lowered bl c k)) (rs h) (ws h))).
Proof.
  intros E U N. unfold parameter, general. assert (EG : get_tv v h = Ok (c, h)) by (unfold get_tv; now rewrite E). rewrite (bind_eq _ _ _ _ _ EG).
  assert (LT : (v < length (vs h))%nat) by (apply nth_error_Some; congruence).
  destruct (member v ps) eqn:EM; [apply member_spec in EM; contradiction|].
  destruct (tvLevel c <=? bl) eqn:EL; [right; left; split; [lia|]; split; [lia|reflexivity]|].
  assert (SL : setTvLevel v bl h = Ok (tt, mkHeap (set_nth (vs h) v (lowered bl c (tvKind c))) (rs h) (ws h))).
  { unfold setTvLevel. rewrite (bind_eq _ _ _ _ _ EG). reflexivity. }
  assert (KK : tvKind c = NoLink \/ tvKind c = Explicit) by (destruct (tvKind c) as [| |t] eqn:K; [auto|auto|now destruct (U t)]).
  destruct (tvOvl c) eqn:EO.
  { right. right. split; [intros (_ & X & _); discriminate|]. split; [lia|]. exists (tvKind c). split; [exact KK|]. now rewrite (bind_eq _ _ _ _ _ SL). }
  destruct (tvImp c && isExp) eqn:EI; [|left; split; [split; [lia|auto]|reflexivity]].
  right. right. split; [intros (_ & _ & X); discriminate|]. split; [lia|]. exists NoLink. split; [now left|]. rewrite (bind_eq _ _ _ _ _ SL).
  destruct KK as [K|K]; rewrite K.
  - reflexivity.
  - assert (SK : forall c', setTvKind v NoLink (mkHeap (set_nth (vs h) v c') (rs h) (ws h)) =
        Ok (tt, mkHeap (set_nth (vs h) v (mkTv NoLink (tvEqu c') (tvImp c') (tvOvl c') (tvLevel c'))) (rs h) (ws h))).
    { intros c'. unfold setTvKind. assert (EG' : get_tv v (mkHeap (set_nth (vs h) v c') (rs h) (ws h)) = Ok (c', mkHeap (set_nth (vs h) v c') (rs h) (ws h)))
        by (unfold get_tv; cbn [vs]; now rewrite set_nth_same).
      rewrite (bind_eq _ _ _ _ _ EG'). unfold set_tv. cbn [vs rs ws]. now rewrite set_nth_twice. }
    rewrite (bind_eq _ _ _ _ _ (SK _)). reflexivity.
Qed.

Lemma foldL_ok bl isExp : forall l ps h, NoDup l -> NoDup ps -> (forall v, In v l -> ~ In v ps) ->
  (forall v, In v l -> exists c, nth_error (vs h) v = Some c /\ unbound c) ->
  exists ps' h', foldL (parameter bl isExp) ps l h = Ok (ps', h') /\ NoDup ps' /\
    (forall v, In v ps' <-> In v ps \/ In v l /\ exists c, nth_error (vs h) v = Some c /\ general bl isExp c) /\
    changed h h' (held bl isExp h l) bl.
Proof.
  induction l as [|v l IH]; intros ps h NL NP D HU.
  - exists ps, h. split; [reflexivity|]. split; [auto|]. split; [intros u; cbn; tauto|].
    do 3 (split; [reflexivity|]). split; [auto|]. intros u c [[] _].
  - inversion NL as [|? ? Nv NL']; subst. destruct (HU v (or_introl eq_refl)) as (c & E & U). cbn [foldL].
    destruct (parameter_ok bl isExp v ps h c E U (D v (or_introl eq_refl))) as [(G & P)|[(NG & LE & P)|(NG & LT & k & KK & P)]]; rewrite (bind_eq _ _ _ _ _ P).
    + destruct (IH (v :: ps) h NL') as (ps' & h' & E' & N' & I' & C').
      * constructor; [apply D; now left|exact NP].
      * intros u Hu [<-|X]; [contradiction|]. revert X. apply D. now right.
      * intros u Hu. apply HU. now right.
      * exists ps', h'. split; [exact E'|]. split; [exact N'|]. split.
        -- intros u. rewrite I'. cbn [In]. split.
           ++ intros [[<-|X]|[X Y]]; [right; split; [now left|eauto]|auto|right; split; [now right|exact Y]].
           ++ intros [X|[[<-|X] Y]]; [auto|left; now left|right; auto].
        -- destruct C' as (A1 & A2 & A3 & A4 & A5). do 3 (split; [assumption|]). split.
           ++ intros u Hu. apply A4. intros [X Y]. apply Hu. split; [now right|exact Y].
           ++ intros u cu [[<-|X] Y] Eu Uu; [|apply A5; auto; split; auto]. destruct Y as (c' & Ec & _ & NG). rewrite E in Ec. injection Ec as <-. contradiction.
    + destruct (IH ps h NL' NP) as (ps' & h' & E' & N' & I' & C').
      * intros u Hu. apply D. now right.
      * intros u Hu. apply HU. now right.
      * exists ps', h'. split; [exact E'|]. split; [exact N'|]. split.
        -- intros u. rewrite I'. cbn [In]. split; [intros [X|[X Y]]; [auto|right; split; [now right|exact Y]]|].
           intros [X|[[<-|X] Y]]; [auto| |right; auto]. destruct Y as (c' & Ec & G). rewrite E in Ec. injection Ec as <-. contradiction.
        -- destruct C' as (A1 & A2 & A3 & A4 & A5). do 3 (split; [assumption|]). split.
           ++ intros u Hu. apply A4. intros [X Y]. apply Hu. split; [now right|exact Y].
           ++ intros u cu [[<-|X] Y] Eu Uu; [|apply A5; auto; split; auto]. destruct Y as (c' & Ec & LT & _). rewrite E in Ec. injection Ec as <-. lia.
    + set (h1 := mkHeap (set_nth (vs h) v (lowered bl c k)) (rs h) (ws h)).
      assert (LV : (v < length (vs h))%nat) by (apply nth_error_Some; congruence).
      assert (S1 : nth_error (vs h1) v = Some (lowered bl c k)) by (cbn; now apply set_nth_same).
      assert (S2 : forall u, u <> v -> nth_error (vs h1) u = nth_error (vs h) u) by (intros u N; cbn; apply set_nth_other; congruence).
      destruct (IH ps h1 NL' NP) as (ps' & h' & E' & N' & I' & C').
      * intros u Hu. apply D. now right.
      * intros u Hu. rewrite S2 by (intros ->; contradiction). apply HU. now right.
      * exists ps', h'. split; [exact E'|]. split; [exact N'|]. split.
        -- intros u. rewrite I'. cbn [In]. split.
           ++ intros [X|[X Y]]; [auto|right; split; [now right|]]. now rewrite S2 in Y by (intros ->; contradiction).
           ++ intros [X|[[<-|X] Y]]; [auto| |right; split; [auto|now rewrite S2 by (intros ->; contradiction)]].
              destruct Y as (c' & Ec & G). rewrite E in Ec. injection Ec as <-. contradiction.
        -- destruct C' as (A1 & A2 & A3 & A4 & A5). split; [exact A1|]. split; [exact A2|]. split; [rewrite A3; cbn; apply set_nth_len|]. split.
           ++ intros u Hu. rewrite A4.
              ** apply S2. intros ->. apply Hu. split; [now left|eauto].
              ** intros [X Y]. apply Hu. split; [now right|]. now rewrite S2 in Y by (intros ->; contradiction).
           ++ intros u cu [[<-|X] Y] Eu Uu.
              ** rewrite E in Eu. injection Eu as <-. rewrite (A4 v) by (intros [X _]; contradiction). exists (lowered bl c k). split; [exact S1|].
                 split; [intros t; cbn; destruct KK; congruence|]. cbn. auto.
              ** assert (u <> v) by (intros ->; contradiction). apply A5; [split; [auto|now rewrite S2]|now rewrite S2|auto].
Qed.

(** changing levels of unbound variables does not change meanings *)
Lemma changed_means h h' P bl : changed h h' P bl -> (forall v, P v -> exists c, nth_error (vs h) v = Some c /\ unbound c) ->
  (forall v, P v \/ ~ P v) ->
  (forall t o (M : means h t o), means h' t o) /\ (forall ts os (M : means_all h ts os), means_all h' ts os).
Proof.
  intros (A1 & A2 & A3 & A4 & A5) HU DEC. apply means_both.
  - intros v c E U. destruct (DEC v) as [H|H].
    + destruct (A5 v c H E U) as (c' & E' & U' & _). econstructor; eauto.
    + econstructor; [rewrite A4 by exact H; exact E|exact U].
  - intros v c t o E K M IH. destruct (DEC v) as [H|H].
    + destruct (HU v H) as (c' & E' & U). rewrite E in E'. injection E' as <-. now destruct (U t).
    + eapply M_link; [rewrite A4 by exact H; exact E|exact K|exact IH].
  - intros. now constructor.
  - intros. now constructor.
  - intros r c os tl E Ms IH R. econstructor; [rewrite A1; exact E|exact IH|]. unfold row_end in *. now rewrite A2.
  - constructor.
  - intros. now constructor.
Qed.
