(** * Solvable heaps are in solved form

    If the equations of a heap have a solution in finite trees, and links do not
    form circles, then every choice of trees for the unbound variables and rows
    gives exactly one solution. *)

From Coq Require Import ZArith List Bool Permutation Sorted Lia Arith Wf_nat.
From Verif Require Import Unify_Model Unify_Spec Unify_Base.
Import ListNotations.
Open Scope Z_scope.

(** ** Equations and attributes *)

Definition eqv (p : val) (v : nat) (c : tvrec) : Prop :=
  match tvKind c with
  | LinkTo t => dv p v = den p t
  | Explicit => dv p v = TRig v (tvEqu c) (tvImp c) (tvOvl c) (tvLevel c)
  | NoLink => True
  end.

Definition eqw (L : nat -> list lab) (p : val) (w : nat) (k : rowkind) : Prop :=
  match k with
  | NILrow => dw p w = []
  | LINKrow w' => dw p w = dw p w'
  | FIELDrow l t w' => Join [(l, den p t)] (dw p w') (dw p w)
  | VARrow _ _ _ => sorted (dw p w) /\ (forall l, In l (labels (dw p w)) -> ~ In l (L w))
  end.

Definition eqs (L : nat -> list lab) (h : heap) (p : val) : Prop :=
  (forall v c, nth_error (vs h) v = Some c -> eqv p v c) /\
  (forall r c, nth_error (rs h) r = Some c -> rec_sat p r c) /\
  (forall w k, nth_error (ws h) w = Some k -> eqw L p w k).

Definition tv_ok (G : nat -> tninfo) (vp : bool) (c : tvrec) (t : tree) : Prop :=
  attr_ok G vp (tvEqu c) (tvImp c) (tvLevel c) t /\ (tvOvl c = true -> ovl_ok t).

Definition ats (G : nat -> tninfo) (vp : bool) (h : heap) (p : val) : Prop :=
  (forall v c, nth_error (vs h) v = Some c -> tvKind c = NoLink -> tv_ok G vp c (dv p v)) /\
  (forall w e i lv, nth_error (ws h) w = Some (VARrow e i lv) ->
     forall l t, In (l, t) (dw p w) -> attr_ok G vp e i lv t).

Lemma sat_split G vp L h p : sat G vp L h p <-> eqs L h p /\ ats G vp h p.
Proof.
  split.
  - intros (A & B & C). split.
    + split; [|split; [exact B|]].
      * intros v c E. specialize (A v c E). unfold tv_sat in A. unfold eqv.
        destruct (tvKind c); auto.
      * intros w k E. specialize (C w k E). destruct k; cbn in *; auto.
        destruct C as (C1 & C2 & _). auto.
    + split.
      * intros v c E K. specialize (A v c E). unfold tv_sat in A. rewrite K in A. exact A.
      * intros w e i lv E. specialize (C _ _ E). destruct C as (_ & _ & C). exact C.
  - intros ((A & B & C) & D & E). split; [|split; [exact B|]].
    + intros v c H. specialize (A v c H). unfold eqv in A. unfold tv_sat.
      destruct (tvKind c) eqn:K; auto. exact (D v c H K).
    + intros w k H. specialize (C w k H). destruct k; cbn in *; auto.
      destruct C as [C1 C2]. repeat split; auto; eapply E; eauto.
Qed.

(** ** Addresses *)

Inductive addr := AV (v : nat) | AR (r : nat) | AW (w : nat).

Definition same_at (p q : val) (x : addr) : Prop :=
  match x with
  | AV v => dv p v = dv q v
  | AR r => dr p r = dr q r
  | AW w => dw p w = dw q w
  end.

Definition indom (h : heap) (x : addr) : Prop :=
  match x with
  | AV v => (v < length (vs h))%nat
  | AR r => (r < length (rs h))%nat
  | AW w => (w < length (ws h))%nat
  end.

Lemma agree_at h p q : agree h p q <-> forall x, indom h x -> same_at p q x.
Proof.
  split.
  - intros (A & B & C) [v|r|w] D; cbn in *; auto.
  - intros H. repeat split; intros x D; [apply (H (AV x) D)|apply (H (AR x) D)|apply (H (AW x) D)].
Qed.

Fixpoint adrs (t : ty) : list addr :=
  match t with
  | VARt v => [AV v]
  | ARROWt a b => adrs a ++ adrs b
  | CONt ts _ => flat_map adrs ts
  | RECt r => [AR r]
  end.

Definition succ (h : heap) (x : addr) : list addr :=
  match x with
  | AV v =>
      match nth_error (vs h) v with
      | Some c => match tvKind c with LinkTo t => adrs t | _ => [] end
      | None => []
      end
  | AR r =>
      match nth_error (rs h) r with
      | Some c => AW (rho c) :: flat_map (fun f => adrs (snd f)) (fields c)
      | None => []
      end
  | AW w =>
      match nth_error (ws h) w with
      | Some (LINKrow w') => [AW w']
      | Some (FIELDrow l t w') => AW w' :: adrs t
      | _ => []
      end
  end.

Lemma den_at p q t : (forall x, In x (adrs t) -> same_at p q x) -> den p t = den q t.
Proof.
  induction t as [v|a b IHa IHb|ts tn IH|r] using ty_ind'; intros H; cbn in *.
  - apply (H (AV v)). auto.
  - f_equal; [apply IHa|apply IHb]; intros; apply H, in_app_iff; auto.
  - f_equal. apply map_ext_in. intros t I. rewrite Forall_forall in IH. apply (IH _ I).
    intros x J. apply H. apply in_flat_map. eauto.
  - f_equal. apply (H (AR r)). auto.
Qed.

Lemma denf_at p q fs : (forall x, In x (flat_map (fun f => adrs (snd f)) fs) -> same_at p q x) ->
  denf p fs = denf q fs.
Proof.
  intros H. apply map_ext_in. intros [l t] I. cbn. f_equal. apply den_at.
  intros x J. apply H, in_flat_map. exists (l, t). auto.
Qed.

Lemma adrs_dom G h t x : wf_ty G h t -> In x (adrs t) -> indom h x.
Proof.
  induction t as [v|a b IHa IHb|ts tn IH|r] using ty_ind'; intros W I.
  - destruct I as [<-|[]]. exact W.
  - destruct W. cbn in I. apply in_app_iff in I as [I|I]; auto.
  - apply wf_con in W as [_ W]. cbn in I. apply in_flat_map in I as [t [I J]].
    rewrite Forall_forall in *. eauto.
  - destruct I as [<-|[]]. exact W.
Qed.

Lemma succ_dom G L h x y : wf G L h -> In y (succ h x) -> indom h y.
Proof.
  intros W. destruct x as [v|r|w]; cbn.
  - destruct (nth_error (vs h) v) as [c|] eqn:E; [|intros []].
    destruct (tvKind c) as [| |t] eqn:K; [intros []..|]. apply (adrs_dom G).
    exact (wf_link _ _ _ W _ _ _ E K).
  - destruct (nth_error (rs h) r) as [c|] eqn:E; [|intros []].
    intros [<-|I]; [exact (wf_rho _ _ _ W _ _ E)|].
    apply in_flat_map in I as [[l t] [I J]].
    exact (adrs_dom G _ _ _ (wf_fields _ _ _ W _ _ _ _ E I) J).
  - destruct (nth_error (ws h) w) as [[|e i lv|w'|l t w']|] eqn:E; cbn; try contradiction.
    + intros [<-|[]]. exact (proj1 (wf_LINKrow _ _ _ W _ _ E)).
    + intros [<-|I]; [exact (proj1 (wf_FIELDrow _ _ _ W _ _ _ _ E))|].
      exact (adrs_dom G _ _ _ (proj1 (proj2 (wf_FIELDrow _ _ _ W _ _ _ _ E))) I).
Qed.

(** ** The pointers of a solvable heap are well founded *)

Definition meas (p : val) (x : addr) : nat :=
  match x with
  | AV v => tsize (dv p v)
  | AR r => S (rsize (dr p r))
  | AW w => rsize (dw p w)
  end.

Lemma meas_adrs p t x : In x (adrs t) ->
  (meas p x <= tsize (den p t))%nat /\ (match t with VARt _ => True | _ => meas p x < tsize (den p t) end)%nat.
Proof.
  induction t as [v|a b IHa IHb|ts tn IH|r] using ty_ind'; intros I.
  - destruct I as [<-|[]]. cbn. auto.
  - cbn [den tsize]. apply in_app_iff in I as [I|I]; [apply IHa in I|apply IHb in I]; lia.
  - apply in_flat_map in I as [t [I J]]. rewrite Forall_forall in IH.
    pose proof (proj1 (IH _ I J)) as A. cbn [den]. rewrite tsize_con.
    pose proof (lsize_in (den p t) (map (den p) ts) (in_map _ _ _ I)). lia.
  - destruct I as [<-|[]]. cbn [den]. rewrite tsize_rec. cbn [meas]. lia.
Qed.

Definition lnk (h : heap) (y x : addr) : Prop :=
  match y, x with
  | AV a, AV b => vlink h a b
  | AW a, AW b => wlink h a b
  | _, _ => False
  end.

Lemma succ_meas L h p x y : eqs L h p -> In y (succ h x) ->
  (meas p y < meas p x)%nat \/ (meas p y = meas p x /\ lnk h y x).
Proof.
  intros (A & B & C). destruct x as [v|r|w]; cbn [succ].
  - destruct (nth_error (vs h) v) as [c|] eqn:E; [|intros []].
    destruct (tvKind c) as [| |t] eqn:K; [intros []..|]. intros I.
    specialize (A _ _ E). unfold eqv in A. rewrite K in A.
    destruct (meas_adrs p t y I) as [M N]. cbn [meas] in *. rewrite A.
    destruct t; try (left; exact N). destruct I as [<-|[]]. right. split; [reflexivity|].
    exists c. auto.
  - destruct (nth_error (rs h) r) as [c|] eqn:E; [|intros []].
    specialize (B _ _ E). apply Join_rsize in B. intros H. left. cbn [meas].
    destruct H as [<-|I]; cbn [meas]; [lia|].
    apply in_flat_map in I as [[l t] [I J]]. apply (meas_adrs p) in J as [J _]. cbn [snd] in J.
    assert (In (l, den p t) (denf p (fields c))) as K by (apply in_map_iff; exists (l, t); auto).
    apply rsize_in in K. lia.
  - destruct (nth_error (ws h) w) as [[|e i lv|w'|l t w']|] eqn:E; cbn [In]; try contradiction.
    + intros [<-|[]]. right. specialize (C _ _ E). cbn in *. rewrite C. split; [reflexivity|exact E].
    + intros [<-|J].
      { specialize (C _ _ E). cbn in C. apply Join_rsize in C. cbn in C. left. cbn [meas]. lia. }
      specialize (C _ _ E). cbn in C. apply Join_rsize in C. cbn in C.
      apply (meas_adrs p) in J as [J _]. left. cbn [meas]. lia.
Qed.

Lemma lnk_acc G L h : wf G L h -> forall x, Acc (lnk h) x.
Proof.
  intros W. intros [v|r|w].
  - induction (wf_vacc _ _ _ W v) as [v _ IH]. constructor. intros [a|a|a] H; cbn in H; try contradiction.
    apply IH, H.
  - constructor. intros [a|a|a] H; contradiction.
  - induction (wf_wacc _ _ _ W w) as [w _ IH]. constructor. intros [a|a|a] H; cbn in H; try contradiction.
    apply IH, H.
Qed.

Definition ptr (h : heap) (y x : addr) : Prop := In y (succ h x).

Lemma acyclic G L h p : wf G L h -> eqs L h p -> forall x, Acc (ptr h) x.
Proof.
  intros W E.
  assert (K : forall n x, (meas p x < n)%nat -> Acc (ptr h) x).
  { induction n as [|n IH]; [intros; lia|]. intros x B.
    induction (lnk_acc _ _ _ W x) as [x _ IHx].
    constructor. intros y I. destruct (succ_meas _ _ _ _ _ E I) as [M|[M N]].
    - apply IH. lia.
    - apply IHx; [exact N|lia]. }
  intros x. exact (K _ x (Nat.lt_succ_diag_r _)).
Qed.

(** ** One solution for each choice of the unbound variables *)

Definition same_free (h : heap) (p q : val) : Prop :=
  (forall v c, nth_error (vs h) v = Some c -> tvKind c = NoLink -> dv p v = dv q v) /\
  (forall w e i lv, nth_error (ws h) w = Some (VARrow e i lv) -> dw p w = dw q w).

Lemma same_at_uniq L h p q x : eqs L h p -> eqs L h q -> same_free h p q -> indom h x ->
  (forall y, In y (succ h x) -> same_at p q y) -> same_at p q x.
Proof.
  intros (A & B & C) (A' & B' & C') (F & F') D H.
  destruct x as [v|r|w]; cbn in *.
  - destruct (nth_ex _ _ D) as [c E]. rewrite E in H.
    specialize (A _ _ E). specialize (A' _ _ E). unfold eqv in *.
    destruct (tvKind c) as [| |t] eqn:K; [congruence|eauto|].
    rewrite A, A'. apply den_at, H.
  - destruct (nth_ex _ _ D) as [c E]. rewrite E in H.
    specialize (B _ _ E). specialize (B' _ _ E). unfold rec_sat in *.
    rewrite (denf_at p q) in B by (intros; apply H; right; assumption).
    assert (same_at p q (AW (rho c))) as S by (apply H; left; reflexivity). cbn in S. rewrite S in B.
    exact (Join_fun _ _ _ _ B B').
  - destruct (nth_ex _ _ D) as [k E]. rewrite E in H.
    specialize (C _ _ E). specialize (C' _ _ E).
    destruct k as [|e i lv|w'|l t w']; cbn in C, C'.
    + congruence.
    + eauto.
    + rewrite C, C'. apply (H (AW w')). left. reflexivity.
    + rewrite (den_at p q) in C by (intros; apply H; right; assumption).
      assert (same_at p q (AW w')) as S by (apply H; left; reflexivity). cbn in S. rewrite S in C.
      exact (Join_fun _ _ _ _ C C').
Qed.

Lemma unique G L h p q : wf G L h -> eqs L h p -> eqs L h q -> same_free h p q -> agree h p q.
Proof.
  intros W E E' F. apply agree_at. intros x D.
  induction (acyclic _ _ _ _ W E x) as [x _ IH].
  apply (same_at_uniq L h); try assumption.
  intros y I. apply IH; [exact I|]. exact (succ_dom _ _ _ _ _ W I).
Qed.

(** *** Existence *)

Section Solve.
Variables (h : heap) (fv : nat -> tree) (fw : nat -> row).

Definition step (p : val) : val := mkVal
  (fun v => match nth_error (vs h) v with
            | Some c => match tvKind c with
                        | LinkTo t => den p t
                        | Explicit => TRig v (tvEqu c) (tvImp c) (tvOvl c) (tvLevel c)
                        | NoLink => fv v
                        end
            | None => TRec []
            end)
  (fun r => match nth_error (rs h) r with
            | Some c => sortL (denf p (fields c) ++ dw p (rho c))
            | None => []
            end)
  (fun w => match nth_error (ws h) w with
            | Some NILrow => []
            | Some (VARrow _ _ _) => fw w
            | Some (LINKrow w') => dw p w'
            | Some (FIELDrow l t w') => sortL ((l, den p t) :: dw p w')
            | None => []
            end).

Fixpoint iter (k : nat) : val :=
  match k with
  | O => mkVal (fun _ => TRec []) (fun _ => []) (fun _ => [])
  | S k => step (iter k)
  end.

Lemma step_dep p q x : (forall y, In y (succ h x) -> same_at p q y) -> same_at (step p) (step q) x.
Proof.
  destruct x as [v|r|w]; cbn; intros H.
  - destruct (nth_error (vs h) v) as [c|]; [|reflexivity].
    destruct (tvKind c); try reflexivity. apply den_at, H.
  - destruct (nth_error (rs h) r) as [c|]; [|reflexivity].
    rewrite (denf_at p q) by (intros; apply H; right; assumption).
    assert (same_at p q (AW (rho c))) as S by (apply H; left; reflexivity). cbn in S. rewrite S. reflexivity.
  - destruct (nth_error (ws h) w) as [[|e i lv|w'|l t w']|]; try reflexivity.
    + apply (H (AW w')). left. reflexivity.
    + rewrite (den_at p q) by (intros; apply H; right; assumption).
      assert (same_at p q (AW w')) as S by (apply H; left; reflexivity). cbn in S. rewrite S. reflexivity.
Qed.

Definition stab (K : nat) (x : addr) : Prop :=
  forall k, (K <= k)%nat -> same_at (iter k) (iter K) x.

Lemma same_at_sym p q x : same_at p q x -> same_at q p x.
Proof. destruct x; cbn; auto. Qed.
Lemma same_at_trans p q r x : same_at p q x -> same_at q r x -> same_at p r x.
Proof. destruct x; cbn; congruence. Qed.

Lemma stab_mono K K' x : (K <= K')%nat -> stab K x -> stab K' x.
Proof.
  intros B S k B'. eapply same_at_trans; [apply S; lia|]. apply same_at_sym, S. lia.
Qed.

Lemma stab_all l : (forall x, In x l -> exists K, stab K x) -> exists K, forall x, In x l -> stab K x.
Proof.
  induction l as [|x l IH]; intros H; [exists O; intros x []|].
  destruct (H x (or_introl eq_refl)) as [K1 S1].
  destruct IH as [K2 S2]; [intros; apply H; right; assumption|].
  exists (max K1 K2). intros y [<-|I]; [apply (stab_mono K1)|apply (stab_mono K2)]; auto; lia.
Qed.

Lemma stab_ex x : Acc (ptr h) x -> exists K, stab K x.
Proof.
  induction 1 as [x _ IH]. destruct (stab_all (succ h x)) as [K ST]; [intros; apply IH; assumption|].
  exists (S K). intros [|k] B; [lia|]. cbn. apply step_dep. intros y I. apply (ST y I). lia.
Qed.

Definition alladdrs : list addr :=
  map AV (seq 0 (length (vs h))) ++ map AR (seq 0 (length (rs h))) ++ map AW (seq 0 (length (ws h))).

Lemma alladdrs_in x : indom h x -> In x alladdrs.
Proof.
  unfold alladdrs. rewrite !in_app_iff, !in_map_iff.
  destruct x as [v|r|w]; cbn; intros D; [left|right; left|right; right];
    eexists; (split; [reflexivity|]); apply in_seq; lia.
Qed.

Variables (G : nat -> tninfo) (L : nat -> list lab).
Hypothesis W : wf G L h.
Hypothesis AC : forall x, Acc (ptr h) x.
Hypothesis FW : forall w e i lv, nth_error (ws h) w = Some (VARrow e i lv) ->
  sorted (fw w) /\ (forall l, In l (labels (fw w)) -> ~ In l (L w)).

Lemma row_ok p : (forall x, indom h x -> same_at (step p) p x) -> forall w, (w < length (ws h))%nat ->
  sorted (dw p w) /\ (forall l, In l (labels (dw p w)) -> ~ In l (L w)).
Proof.
  intros FX w. remember (AW w) as x eqn:X. revert w X.
  induction (AC x) as [x _ IH]. intros w -> D.
  pose proof (FX (AW w) D) as E. cbn in E. destruct (nth_ex _ _ D) as [k H]. rewrite H in E.
  destruct k as [|e i lv|w'|l t w'].
  - rewrite <- E. split; [apply sorted_nil|intros l []].
  - rewrite <- E. exact (FW _ _ _ _ H).
  - destruct (wf_LINKrow _ _ _ W _ _ H) as [D' S].
    destruct (IH (AW w')) with (w := w') as [A B]; [|reflexivity|exact D'|].
    { unfold ptr. cbn. rewrite H. left. reflexivity. }
    rewrite <- E. split; [exact A|]. intros l I J. apply (B l I), S, J.
  - destruct (wf_FIELDrow _ _ _ W _ _ _ _ H) as (D' & _ & N & S).
    destruct (IH (AW w')) with (w := w') as [A B]; [|reflexivity|exact D'|].
    { unfold ptr. cbn. rewrite H. left. reflexivity. }
    change (ins (l, den p t) (fold_right ins [] (dw p w'))) with (sortL ((l, den p t) :: dw p w')) in E.
    rewrite <- E. split.
    + apply sortL_sorted. cbn. constructor; [|apply sorted_nodup, A].
      intros I. apply (B _ I), S. left. reflexivity.
    + intros l' I J.
      apply (Permutation_in _ (Permutation_sym (labels_perm _ _ (sortL_perm _)))) in I.
      destruct I as [<-|I]; [exact (N J)|]. apply (B _ I), S. right. exact J.
Qed.

Lemma solve : exists p, eqs L h p /\
  (forall v c, nth_error (vs h) v = Some c -> tvKind c = NoLink -> dv p v = fv v) /\
  (forall w e i lv, nth_error (ws h) w = Some (VARrow e i lv) -> dw p w = fw w).
Proof.
  destruct (stab_all alladdrs) as [N S]; [intros; apply stab_ex, AC|].
  assert (FX : forall x, indom h x -> same_at (step (iter N)) (iter N) x).
  { intros x D. apply (S x (alladdrs_in x D) (Datatypes.S N)). lia. }
  exists (iter N). remember (iter N) as p eqn:Hp. clear Hp S N.
  pose proof (row_ok p FX) as RW. split; [|split].
  - split; [|split; [intros r c H; split|]].
    + intros v c E. pose proof (FX (AV v) (nth_lt _ _ _ E)) as X. cbn in X. rewrite E in X.
      unfold eqv. destruct (tvKind c); auto.
    + pose proof (FX (AR r) (nth_lt _ _ _ H)) as X. cbn in X. rewrite H in X.
      rewrite <- X. apply sortL_sorted. unfold labels. rewrite map_app. fold (labels (denf p (fields c))).
      rewrite labels_denf. destruct (RW _ (wf_rho _ _ _ W _ _ H)) as [A B].
      pose proof (wf_taken _ _ _ W _ _ H) as T.
      pose proof (sorted_nodup _ (wf_sorted _ _ _ W _ _ H)) as ND.
      pose proof (sorted_nodup _ A) as ND'. revert B ND'.
      fold (labels (dw p (rho c))). generalize (labels (dw p (rho c))) as m. intros m B ND'.
      assert (T' : forall l, In l (labels (fields c)) -> ~ In l m)
        by (intros l I J; exact (B l J (proj2 (T l) I))).
      revert ND T'. generalize (labels (fields c)) as f. induction f as [|l f IHf]; intros ND T'; [exact ND'|].
      inversion ND; subst. cbn. constructor.
      * rewrite in_app_iff. intros [I|I]; [auto|]. apply (T' l); [left; reflexivity|exact I].
      * apply IHf; [assumption|]. intros; apply T'; right; assumption.
    + pose proof (FX (AR r) (nth_lt _ _ _ H)) as X. cbn in X. rewrite H in X.
      rewrite <- X. apply sortL_perm.
    + intros w k E. pose proof (nth_lt _ _ _ E) as D. pose proof (FX (AW w) D) as X. cbn in X. rewrite E in X.
      destruct k as [|e i lv|w'|l t w']; cbn.
      * auto.
      * exact (RW w D).
      * auto.
      * split; [exact (proj1 (RW w D))|].
        change (ins (l, den p t) (fold_right ins [] (dw p w'))) with (sortL ((l, den p t) :: dw p w')) in X.
        rewrite <- X. apply sortL_perm.
  - intros v c E K. pose proof (FX (AV v) (nth_lt _ _ _ E)) as X. cbn in X. rewrite E, K in X. auto.
  - intros w e i lv E. pose proof (FX (AW w) (nth_lt _ _ _ E)) as X. cbn in X. rewrite E in X. auto.
Qed.
End Solve.

(** ** Rewriting solved cells

    If a heap is changed in its bound cells only and every solution remains one,
    no new solutions arise. *)

Definition inv (G : nat -> tninfo) (L : nat -> list lab) (h : heap) : Prop :=
  wf G L h /\ exists p, eqs L h p.

Lemma inv_solve G L h fv fw : inv G L h ->
  (forall w e i lv, nth_error (ws h) w = Some (VARrow e i lv) ->
     sorted (fw w) /\ (forall l, In l (labels (fw w)) -> ~ In l (L w))) ->
  exists p, eqs L h p /\
  (forall v c, nth_error (vs h) v = Some c -> tvKind c = NoLink -> dv p v = fv v) /\
  (forall w e i lv, nth_error (ws h) w = Some (VARrow e i lv) -> dw p w = fw w).
Proof.
  intros [W [p E]] F. apply (solve h fv fw G L W); [exact (acyclic _ _ _ _ W E)|exact F].
Qed.

(** The unbound cells of two heaps are the same. *)
Definition same_open (h h' : heap) : Prop :=
  length (vs h') = length (vs h) /\ length (rs h') = length (rs h) /\ ws h' = ws h /\
  (forall v c, nth_error (vs h) v = Some c -> tvKind c = NoLink \/ tvKind c = Explicit ->
     nth_error (vs h') v = Some c) /\
  (forall v c, nth_error (vs h') v = Some c -> tvKind c = NoLink \/ tvKind c = Explicit ->
     nth_error (vs h) v = Some c).

Lemma same_open_refl h : same_open h h.
Proof. repeat split; auto. Qed.

Lemma same_open_trans a b c : same_open a b -> same_open b c -> same_open a c.
Proof.
  intros (A1&A2&A3&A4&A5) (B1&B2&B3&B4&B5). repeat split; try congruence; eauto.
Qed.

Lemma eqs_agree G L h p q : wf G L h -> agree h p q -> eqs L h p -> eqs L h q.
Proof.
  intros W A (E1 & E2 & E3). pose proof A as (A1 & A2 & A3). split; [|split; [intros r c H; split|]].
  - intros v c E. specialize (E1 v c E). unfold eqv in *.
    rewrite <- (A1 v (nth_lt _ _ _ E)).
    destruct (tvKind c) eqn:K; auto. rewrite E1.
    exact (den_agree G h _ _ _ A (wf_link _ _ _ W _ _ _ E K)).
  - rewrite <- (A2 r (nth_lt _ _ _ H)). exact (proj1 (E2 r c H)).
  - rewrite <- (A2 r (nth_lt _ _ _ H)), <- (A3 _ (wf_rho _ _ _ W _ _ H)).
    rewrite <- (denf_agree G h p q _ A) by (intros; eapply (wf_fields _ _ _ W); eauto).
    exact (proj2 (E2 r c H)).
  - intros w k E. specialize (E3 w k E). pose proof (nth_lt _ _ _ E) as D.
    destruct k as [|e i lv|w'|l t w']; cbn in *; rewrite <- (A3 w D).
    + exact E3.
    + exact E3.
    + rewrite <- (A3 w'); [exact E3|]. exact (proj1 (wf_LINKrow _ _ _ W _ _ E)).
    + destruct (wf_FIELDrow _ _ _ W _ _ _ _ E) as (D' & T & _).
      rewrite <- (A3 w' D'), <- (den_agree G h p q t A T). exact E3.
Qed.

Lemma ats_agree G vp h p q : agree h p q -> ats G vp h p -> ats G vp h q.
Proof.
  intros (A1 & A2 & A3) [B C]. split.
  - intros v c E K. rewrite <- (A1 v (nth_lt _ _ _ E)). auto.
  - intros w e i lv E. rewrite <- (A3 w (nth_lt _ _ _ E)). eauto.
Qed.

Lemma sat_agree G vp L h p q : wf G L h -> agree h p q -> sat G vp L h p -> sat G vp L h q.
Proof.
  intros W A. rewrite !sat_split. intros [B C].
  split; [exact (eqs_agree G L h p q W A B)|exact (ats_agree G vp h p q A C)].
Qed.

Lemma agree_len h h' p q : length (vs h') = length (vs h) -> length (rs h') = length (rs h) ->
  ws h' = ws h -> agree h' p q -> agree h p q.
Proof.
  intros A B C. apply agree_grows. unfold grows. rewrite A, B, C. auto.
Qed.

Lemma rewrite_back G L h h' p : inv G L h -> wf G L h' -> same_open h h' ->
  (forall q, eqs L h q -> eqs L h' q) -> eqs L h' p -> eqs L h p.
Proof.
  intros I W' (S1&S2&S3&S4&S5) F E'.
  destruct (inv_solve G L h (dv p) (dw p) I) as (q & Q & Q1 & Q2).
  { intros w e i lv E. rewrite <- S3 in E. destruct E' as (_ & _ & E'). exact (E' _ _ E). }
  apply (eqs_agree G L h q p (proj1 I)); [|exact Q].
  apply (agree_len h h'); [assumption..|].
  apply (unique G L h'); [exact W'|exact (F q Q)|exact E'|]. split.
  - intros v c E K. exact (Q1 v c (S5 v c E (or_introl K)) K).
  - intros w e i lv E. rewrite S3 in E. exact (Q2 _ _ _ _ E).
Qed.
