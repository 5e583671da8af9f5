(** lftexp produces translations; what it captures. *)
From Coq Require Import Sorting.Sorted.
From Verif Require Import Base Opcodes Back_Model Back_Spec Back_Sim Back_Frame Back_Prog Back_Lift Lam_Spec Lift_Rel Lift_Prim Lift_Sim Lift_Undb.

(** ** The lists of free variables and of functions grow *)
Definition dec (l : list Z) : Prop := Forall (fun x => x < 0) l /\ StronglySorted Z.gt l.
Lemma in_ins x y l : In y (ins x l) <-> y = x \/ In y l.
Proof.
  induction l as [|z l IH]; cbn; [firstorder congruence|]. destruct (x >? z) eqn:E1; [cbn; firstorder congruence|].
  destruct (x =? z) eqn:E2; cbn; [apply Z.eqb_eq in E2; firstorder congruence|]. rewrite IH. firstorder congruence.
Qed.
Lemma dec_ins x l : x < 0 -> dec l -> dec (ins x l).
Proof.
  intros Hx (H1 & H2). split.
  - apply Forall_forall. intros y Hy. apply in_ins in Hy as [-> | Hy]; auto. now apply (proj1 (Forall_forall _ _) H1).
  - clear H1. induction H2 as [|z l S IH Fa]; cbn. { constructor; constructor. }
    destruct (x >? z) eqn:E1. { constructor; [now constructor|]. constructor; [lia|]. eapply Forall_impl; [|exact Fa]. intros; cbn in *; lia. }
    destruct (x =? z) eqn:E2; [now constructor|]. constructor; auto. apply Forall_forall. intros y Hy. apply in_ins in Hy as [-> | Hy]; [lia|].
    now apply (proj1 (Forall_forall _ _) Fa).
Qed.
Lemma dec_tl l : dec l -> forall x, In x (tl l) -> x < -1.
Proof.
  intros (H1 & H2) x Hx. destruct l as [|y l]; [easy|]. inversion H1; subst. inversion H2; subst. cbn in Hx. pose proof (proj1 (Forall_forall _ _) H6 _ Hx). cbn in *. lia.
Qed.
Lemma dec_neg l x : dec l -> In x l -> x < 0.
Proof. intros (H1 & _) Hx. now apply (proj1 (Forall_forall _ _) H1). Qed.

Definition gr (s s' : bst) : Prop := incl (still s) (still s') /\ incl (fvr s) (fvr s') /\ (dec (fvr s) -> dec (fvr s')).
Lemma gr_refl s : gr s s.
Proof. split; [apply incl_refl|]. split; [apply incl_refl | auto]. Qed.
Lemma gr_trans a b c : gr a b -> gr b c -> gr a c.
Proof. intros (H1 & H2 & H3) (G1 & G2 & G3). split; [eapply incl_tran; eauto|]. split; [eapply incl_tran; eauto | auto]. Qed.
Definition grows {A} (m : M A) : Prop := forall s a s', m s = Ret (a, s') -> gr s s'.
Lemma q_ret {A} (a : A) : grows (mret a).
Proof. intros s b s' [= <- <-]. apply gr_refl. Qed.
Lemma q_bind {A B} (m : M A) (f : A -> M B) : grows m -> (forall a, grows (f a)) -> grows (mbind m f).
Proof. intros Hm Hf s b s' H. apply bind_inv in H as (a & s1 & E & H). eapply gr_trans; [eapply Hm | eapply Hf]; eauto. Qed.
Lemma q_fatal {A} : grows (@fatal A).
Proof. intros s a s' H. discriminate H. Qed.
Lemma q_obind {A B} (m : M (option A)) (f : A -> M (option B)) : grows m -> (forall a, grows (f a)) -> grows (obind m f).
Proof. intros Hm Hf. apply q_bind; auto. intros [a|]; auto. apply q_ret. Qed.
Lemma q_mmapl {A B} (f : A -> M B) l : (forall a, grows (f a)) -> grows (mmapl f l).
Proof. intros H. induction l as [|x l IH]; cbn; [apply q_ret|]. apply q_bind; auto. intros y. apply q_bind; auto. intros ys. apply q_ret. Qed.
Lemma q_omapl {A B} (f : A -> M (option B)) l : (forall a, grows (f a)) -> grows (omapl f l).
Proof. intros H. induction l as [|x l IH]; cbn; [apply q_ret|]. apply q_obind; auto. intros y. apply q_obind; auto. intros ys. apply q_ret. Qed.
Lemma q_diverge {A} : grows (fun _ : bst => @Diverge (A * bst)).
Proof. intros s a s' H. discriminate H. Qed.
Lemma q_extClo i : grows (extClo i).
Proof.
  intros s a s' [= <- <-]. destruct (i >=? 0) eqn:E; [apply gr_refl|]. split; [apply incl_refl|]. cbn. split.
  - intros x Hx. apply in_ins. auto. - apply dec_ins. lia.
Qed.
Lemma q_same {A} (m : M A) : (forall s a s', m s = Ret (a, s') -> still s' = still s /\ fvr s' = fvr s) -> grows m.
Proof. intros H s a s' E. apply H in E as (E1 & E2). unfold gr. rewrite E1, E2. split; [apply incl_refl|]. split; [apply incl_refl | auto]. Qed.
Lemma q_set_md d : grows (set_md d).
Proof. apply q_same. intros s a s' [= <- <-]. destruct (d >? mdr s); auto. Qed.
Lemma q_get_sh k : grows (get_sh k).
Proof. intros s a s' H. apply get_sh_inv in H as (-> & _). apply gr_refl. Qed.
Lemma q_newnot : grows newLabelNot.
Proof. apply q_same. now intros s a s' [= <- <-]. Qed.
Lemma q_newlab : grows new_label.
Proof. apply q_same. now intros s a s' [= <- <-]. Qed.
Lemma q_set_exp k e : grows (set_sh_exp k e).
Proof. apply q_same. unfold set_sh_exp. intros s a s' H. destruct (nth_error (sh s) k) as [[c l]|] eqn:E; [|discriminate]. now injection H as <- <-. Qed.
Lemma q_set_lbl k : grows (fun s => set_sh_lbl k (lnot s) s).
Proof. apply q_same. unfold set_sh_lbl. intros s a s' H. destruct (nth_error (sh s) k) as [[c l]|] eqn:E; [|discriminate]. now injection H as <- <-. Qed.
Lemma q_at {A B} (m : bst -> M A) (f : A -> M B) : grows (fun s => m s s) -> (forall a, grows (f a)) -> grows (fun s => mbind (m s) f s).
Proof. intros Hm Hf s b s' H. apply bind_inv in H as (a & s1 & E & H). eapply gr_trans; [eapply Hm | eapply Hf]; eauto. Qed.
Lemma q_if {A} (b : bst -> bool) (m m' : M A) : grows m -> grows m' -> grows (fun s => if b s then m s else m' s).
Proof. intros H1 H2 s a s'. destruct (b s); [apply H1 | apply H2]. Qed.
Lemma q_fresh {A} (m : M A) : grows m -> grows (fresh_refs m).
Proof.
  intros H s a s' E. unfold fresh_refs in E. destruct (m _) as [[b s1]| | |] eqn:Em; try discriminate. injection E as <- <-.
  pose proof (H _ _ _ Em) as (G & _). split; auto. cbn. split; [apply incl_refl | auto].
Qed.

Ltac qr := repeat first [ assumption | apply q_ret | apply q_fatal | apply q_diverge | apply q_extClo | apply q_set_md | apply q_get_sh | apply q_newnot | apply q_newlab
  | apply q_set_exp | apply q_mmapl | apply q_omapl | apply q_obind | apply q_bind | apply q_fresh | progress intros ].

Lemma q_unref i : forall n e, grows (unref n i e).
Proof.
  induction n as [|n IH]; intros e; [apply q_diverge|]. cbn [unref].
  assert (C : forall T (cl : list (T * lam)), grows (omapl (fun '(t, a) => let? a0 := unref n i a in some (t, a0)) cl)).
  { intros T cl. apply q_omapl. intros [t a]. qr. apply IH. }
  destruct e; try (qr; auto; fail).
  - destruct (n0 =? i); qr.
  - assert (G : grows (let? es := omapl (unref n i) es in some (Lprim p es))) by (qr; apply IH).
    destruct p as [u | u | tg k | k | k | | lb k | q]; try exact G; destruct k as [|k|k]; try exact G; destruct es as [|[] [|e2 [|]]]; try exact G; qr; auto.
  - apply q_obind; [auto|]. intros. apply q_obind; [apply C|]. qr.
  - apply q_obind; [auto|]. intros. apply q_obind; [apply C|]. qr.
  - apply q_bind; [apply q_get_sh|]. intros [c l]. apply (q_if (fun s => l =? lnot s)); [apply q_ret|].
    apply q_at; [apply q_set_lbl|]. qr. apply IH.
Qed.
Lemma q_opt_refs n : forall l b i acc, grows (opt_refs n b i l acc).
Proof.
  induction l as [|x l IH]; intros b i acc; [apply q_ret|]. cbn [opt_refs].
  assert (D : forall e, grows (let* _ := newLabelNot in
      let* r := (let? acc' := omapl (unref n i) acc in let? b' := unref n i b in some (acc', b')) in
      match r with
      | Some (acc', b') => opt_refs n b' (i - 1) l (e :: acc')
      | None => opt_refs n b (i - 1) l (x :: acc)
      end)).
  { intros e. apply q_bind; [apply q_newnot|]. intros _. apply q_bind. { qr; apply q_unref. } intros [[acc' b']|]; auto. }
  destruct x; auto. destruct p; auto. destruct span as [|[q|q|]|q]; auto. destruct es as [|e [|]]; auto.
Qed.
Lemma q_liftbd lft d e : (forall d e, grows (lft d e)) -> grows (liftbd lft d e).
Proof.
  intros H. apply q_bind; auto. intros e'. intros s r s' E. apply bind_inv in E as (lbl & s1 & E1 & E). injection E1 as <- <-. injection E as <- <-.
  split; cbn; [apply incl_tl, incl_refl|]. split; [apply incl_refl | auto].
Qed.
Lemma liftfn_bd lft e : forall d, exists j b, e = lfns j b /\ liftfn lft d e = liftbd lft (d + Z.of_nat j) b.
Proof.
  induction e; intros d; try (exists O; eexists; split; [reflexivity | cbn [liftfn]; now rewrite Z.add_0_r]).
  destruct (IHe (d + 1)) as (j & b & -> & E). exists (S j), b. split; auto. cbn [liftfn]. rewrite E. f_equal. lia.
Qed.
Lemma q_liftfn lft e : (forall d e, grows (lft d e)) -> forall d, grows (liftfn lft d e).
Proof. intros H d. destruct (liftfn_bd lft e d) as (j & b & _ & ->). now apply q_liftbd. Qed.
Lemma q_lift_args lft n b : (forall d e, grows (lft d e)) -> forall l ea acc, grows (lift_args lft n b ea l acc).
Proof.
  intros H. induction l as [|x l IH]; intros ea acc; cbn [lift_args].
  - apply q_bind; auto. intros. apply q_opt_refs.
  - apply q_bind; auto.
Qed.
Lemma q_lftexp : forall n d e, grows (lftexp n d e).
Proof.
  induction n as [|n IH]; intros d e; [apply q_diverge|]. cbn [lftexp]. apply q_bind; [apply q_set_md|]. intros _.
  assert (C : forall T (cl : list (T * lam)), grows (mmapl (fun '(t, a) => let* a0 := lftexp n d a in mret (t, a0)) cl)).
  { intros T cl. apply q_mmapl. intros [t a]. qr. apply IH. }
  destruct e; try (qr; auto; fail).
  - apply q_bind; [apply q_fresh, q_liftfn; auto; lia|]. intros [q e']. destruct (q >? 0); qr. apply IH.
  - assert (A : grows (lift_args (lftexp n) n e d args [])) by (apply q_lift_args; auto).
    destruct args as [|x [|]]; try exact A. destruct e; try exact A. destruct es as [|[] l]; try exact A.
    destruct n0; destruct l; try exact A. qr. apply IH.
  - apply q_bind; [auto|]. intros. apply q_bind; [apply C|]. qr.
  - apply q_bind; [auto|]. intros. apply q_bind; [apply C|]. qr.
  - apply q_bind; [apply q_get_sh|]. intros [c l]. apply (q_if (fun _ => l =? Nolabel)); [|apply q_ret].
    apply q_at; [apply q_set_lbl|]. qr. apply IH.
Qed.

(** ** Translations *)
Section Lft.
Variable F : Z -> option fundef.
Definition agree (l : list entry) : Prop := forall lbl k fv md b, In (lbl, k, fv, md, b) l -> F lbl = Some (mkF (Z.to_nat k) fv b).
Lemma agree_incl l l' : incl l l' -> agree l' -> agree l.
Proof. intros I A lbl k fv md b H. eapply A. apply I. exact H. Qed.
Definition fls (d : Z) : list bool := repeat false (Z.to_nat d).
Lemma zl_fls d : 0 <= d -> zl (fls d) = d.
Proof. intros H. unfold fls. rewrite repeat_length. lia. Qed.
Lemma fls_nth d i : nth_error (fls d) i <> Some true.
Proof. intros H. apply nth_error_In in H. now apply repeat_spec in H. Qed.
Lemma fls_at d i : (i < Z.to_nat d)%nat -> nth_error (fls d) i = Some false.
Proof. intros H. unfold fls. apply nth_error_repeat; auto. Qed.
Lemma fls_add d k : 0 <= d -> fls (d + Z.of_nat k) = fls d ++ repeat false k.
Proof. intros H. unfold fls. rewrite <- repeat_app. f_equal. lia. Qed.

(** whatever holds before [s'] *)
Definition lok (m : M lam) (FV : list Z) (d : Z) (e : lam) : Prop :=
  forall s e' s', m s = Ret (e', s') -> dec (fvr s) -> incl (fvr s') FV -> agree (still s') -> tr F FV (fls d) e e'.

Section Step.
Variable n : nat.
Hypothesis IH : forall d e FV, 0 <= d -> lok (lftexp n d e) FV d e.

Lemma lft_list FV d : 0 <= d -> forall es s es' s', mmapl (lftexp n d) es s = Ret (es', s') -> dec (fvr s) -> incl (fvr s') FV -> agree (still s') ->
  Forall2 (tr F FV (fls d)) es es'.
Proof.
  intros Hd. induction es as [|e es IHe]; intros s es' s' H D I A; cbn [mmapl] in H. { injection H as <- <-. constructor. }
  mb H. mb H. injection H as <- <-. destruct (q_lftexp _ _ _ _ _ _ E) as (_ & _ & D1).
  assert (Q : grows (mmapl (lftexp n d) es)) by (apply q_mmapl; intros; apply q_lftexp). destruct (Q _ _ _ E0) as (Q1 & Q2 & _).
  constructor; [|eapply IHe; eauto]. eapply IH; eauto; [eapply incl_tran; eauto | eapply agree_incl; eauto].
Qed.
Lemma lft_case {T} FV d : 0 <= d -> forall (es : list (T * lam)) s es' s', mmapl (fun '(t, a) => let* a := lftexp n d a in mret (t, a)) es s = Ret (es', s') ->
  dec (fvr s) -> incl (fvr s') FV -> agree (still s') -> Forall2 (fun x y => fst x = fst y /\ tr F FV (fls d) (snd x) (snd y)) es es'.
Proof.
  intros Hd. induction es as [|[t e] es IHe]; intros s es' s' H D I A; cbn [mmapl] in H. { injection H as <- <-. constructor. }
  apply bind_inv in H as ([t1 e1] & s1 & E & H). mb E. injection E as <- <- <-. mb H. injection H as <- <-. destruct (q_lftexp _ _ _ _ _ _ E0) as (_ & _ & D1).
  assert (Q : grows (mmapl (fun '(t, a) => let* a := lftexp n d a in mret (t, a)) es)). { apply q_mmapl. intros [t0 e0]. qr. apply q_lftexp. }
  destruct (Q _ _ _ E) as (Q1 & Q2 & _).
  constructor; [|eapply IHe; eauto]. cbn. split; auto. eapply IH; eauto; [eapply incl_tran; eauto | eapply agree_incl; eauto].
Qed.
Lemma lft_let FV d b : 0 <= d -> forall es es0 acc s r s', lift_args (lftexp n) n b (d + zl es0) es acc s = Ret (r, s') -> dec (fvr s) -> incl (fvr s') FV -> agree (still s') ->
  trs F FV (fls d) es0 acc -> tr F FV (fls d) (Llet (es0 ++ es) b) r.
Proof.
  intros Hd. induction es as [|e es IHe]; intros es0 acc s r s' H D I A T; cbn [lift_args] in H.
  - mb H. pose proof (q_opt_refs _ _ _ _ _ _ _ _ H) as (Q1 & Q2 & _).
    eapply opt_refs_tr; [exact H | exact T | rewrite zl_fls; lia|]. apply trl_nil. rewrite <- fls_add by auto.
    eapply IH; eauto; [lia | eapply incl_tran; eauto | eapply agree_incl; eauto].
  - mb H. destruct (q_lftexp _ _ _ _ _ _ E) as (_ & _ & D1).
    assert (Q : grows (lift_args (lftexp n) n b (d + zl es0 + 1) es (a :: acc))) by (apply q_lift_args; intros; apply q_lftexp). destruct (Q _ _ _ H) as (Q1 & Q2 & _).
    replace (e :: es) with ([e] ++ es) by auto. rewrite app_assoc. eapply (IHe (es0 ++ [e]) (a :: acc) st); eauto.
    + rewrite app_length. cbn [length]. replace (d + Z.of_nat (length es0 + 1)) with (d + zl es0 + 1) by lia. exact H.
    + constructor; auto. rewrite <- fls_add by auto. eapply IH; eauto; [lia | eapply incl_tran; eauto | eapply agree_incl; eauto].
Qed.
Lemma fresh_inv {A} (m : M A) s a s' : fresh_refs m s = Ret (a, s') -> exists s1, m (mkB (lc s) (lnot s) (sh s) (still s) [] 0 (va s) (seen s)) = Ret (a, s1) /\ still s' = still s1 /\ fvr s' = fvr s.
Proof. unfold fresh_refs. destruct (m _) as [[b s1]| | |] eqn:Em; try discriminate. intros [= <- <-]. eauto. Qed.
End Step.
Lemma lft_var n d k s e' s' : lftexp n d (Lvar k) s = Ret (e', s') -> e' = Lvar (d - k - 1) /\ (d - k - 1 < 0 -> In (d - k - 1) (fvr s')).
Proof.
  destruct n; [discriminate|]. cbn [lftexp]. intros H. mb H. mb H. injection H as <- <-. injection E0 as <- <-. split; auto. intros H0.
  destruct (d - k - 1 >=? 0) eqn:EE; [lia|]. cbn. apply in_ins. auto.
Qed.
Lemma lft_vars n d : forall fv s es' s', mmapl (lftexp n d) (map (fun id => Lvar (-1 - id)) fv) s = Ret (es', s') ->
  es' = map (fun id => Lvar (d + id)) fv /\ forall id, In id fv -> d + id < 0 -> In (d + id) (fvr s').
Proof.
  induction fv as [|z fv IHf]; intros s es' s' H; cbn [mmapl map] in H. { injection H as <- <-. split; auto. easy. }
  mb H. mb H. injection H as <- <-. apply lft_var in E as (-> & E). assert (Q : grows (mmapl (lftexp n d) (map (fun id => Lvar (-1 - id)) fv))) by (apply q_mmapl; intros; apply q_lftexp).
  destruct (Q _ _ _ E0) as (_ & Q2 & _). apply IHf in E0 as (-> & E0). replace (d - (-1 - z) - 1) with (d + z) in * by lia. split; auto.
  intros id [<- | Hi] H0; auto.
Qed.
Lemma lft_clo n d lbl q fv s e' s' : lftexp n d (Lprim (Pclosure lbl q) (map (fun id => Lvar (-1 - id)) fv)) s = Ret (e', s') ->
  e' = Lprim (Pclosure lbl q) (map (fun id => Lvar (d + id)) fv) /\ forall id, In id fv -> d + id < 0 -> In (d + id) (fvr s').
Proof. destruct n; [discriminate|]. cbn [lftexp]. intros H. mb H. mb H. injection H as <- <-. apply lft_vars in E0 as (-> & E0). auto. Qed.

Lemma lftfn_inv lft b s q e' s' : (forall d e, grows (lft d e)) -> fresh_refs (liftfn lft 1 b) s = Ret ((q, e'), s') -> exists j b0 b' s1 lbl md,
  b = lfns j b0 /\ lft (1 + Z.of_nat j) b0 (mkB (lc s) (lnot s) (sh s) (still s) [] 0 (va s) (seen s)) = Ret (b', s1) /\ fvr s' = fvr s /\
  still s' = (lbl, 1 + Z.of_nat j, fvr s1, md, b') :: still s1 /\ q = zl (fvr s1) /\ e' = Lprim (Pclosure lbl (zl (fvr s1))) (map (fun id => Lvar (-1 - id)) (fvr s1)).
Proof.
  intros G H. apply fresh_inv in H as (s1 & H & E1 & E2). destruct (liftfn_bd lft b 1) as (j & b0 & -> & E). rewrite E in H. unfold liftbd in H.
  mb H. apply bind_inv in H as (lbl & s2 & E3 & H). injection E3 as <- <-. cbn [fvr still mdr lc lnot sh va seen] in H. injection H as <- <- <-. exists j, b0, a, st, (lc st + 1), (mdr st). cbn [still fvr] in *.
  rewrite map_length in *. repeat (split; auto).
Qed.

Theorem lft_tr : forall n d e FV, 0 <= d -> lok (lftexp n d e) FV d e.
Proof.
  induction n as [|n IH]; intros d e FV Hd s e' s' H D I A; [discriminate|]. cbn [lftexp] in H.
  apply bind_inv in H as (u & s0 & E0 & H). assert (D0 : dec (fvr s0)) by (eapply q_set_md; eauto). clear E0 D u s. rename s0 into s, D0 into D.
  assert (Q : forall d e, grows (lftexp n d e)) by (intros; apply q_lftexp).
  assert (QC : forall T (cl : list (T * lam)), grows (mmapl (fun '(t, a) => let* a0 := lftexp n d a in mret (t, a0)) cl)).
  { intros T cl. apply q_mmapl. intros [t a]. qr. apply Q. }
  (* the first of two, the second *)
  assert (S1 : forall d e s e' s2, 0 <= d -> lftexp n d e s = Ret (e', s2) -> dec (fvr s) -> gr s2 s' -> tr F FV (fls d) e e' /\ dec (fvr s2)).
  { intros d1 e1 t1 e1' t2 Hd1 H1 D1 (G1 & G2 & _). split; [|eapply Q; eauto]. eapply IH; eauto; [eapply incl_tran; eauto | eapply agree_incl; eauto]. }
  destruct e.
  - apply bind_inv in H as (u & s1 & E & H). injection H as <- <-. injection E as _ <-. apply tr_var; [now rewrite zl_fls | | intros _; apply fls_nth].
    intros H0. apply I. destruct (d - n0 - 1 >=? 0) eqn:EE; [lia|]. cbn. apply in_ins. auto.
  - injection H as <- <-. constructor.
  - mb H. mb H. injection H as <- <-. assert (QM : grows (mmapl (lftexp n d) args)) by (apply q_mmapl; intros; apply Q).
    destruct (S1 _ _ _ _ _ Hd E D (QM _ _ _ E0)) as (T1 & D1). apply tr_app; auto. eapply lft_list; eauto.
  - (* a function *) apply bind_inv in H as ([q e1] & s1 & E & H). destruct (lftfn_inv _ _ _ _ _ _ Q E) as (j & b0 & b' & s2 & lbl & md & -> & E1 & E2 & E3 & -> & ->).
    change (Lfn (lfns j b0)) with (lfns (S j) b0).
    assert (G : gr s1 s'). { destruct (zl (fvr s2) >? 0); [eapply Q; eauto|]. injection H as _ <-. apply gr_refl. }
    assert (DF : dec (fvr s2)). { eapply Q; [exact E1|]. cbn. split; constructor. }
    assert (A2 : agree (still s1)) by (destruct G; eapply agree_incl; eauto). rewrite E3 in A2.
    assert (FL : F lbl = Some (mkF (S j) (fvr s2) b')). { rewrite (A2 lbl _ _ _ _ (or_introl eq_refl)). do 2 f_equal. lia. }
    assert (TB : tr F (fvr s2) (repeat false (S j)) b0 b').
    { replace (repeat false (S j)) with (fls (1 + Z.of_nat j)) by (unfold fls; f_equal; lia). eapply IH; [lia | exact E1 | cbn; split; constructor | apply incl_refl|].
      eapply agree_incl; [|exact A2]. apply incl_tl, incl_refl. }
    assert (X : e' = Lprim (Pclosure lbl (zl (fvr s2))) (map (fun id => Lvar (d + id)) (fvr s2)) /\ forall id, In id (fvr s2) -> d + id < 0 -> In (d + id) (fvr s')).
    { destruct (zl (fvr s2) >? 0) eqn:EZ; [eapply lft_clo; eauto|]. destruct (fvr s2); [|cbn in EZ; lia]. injection H as <- <-. split; auto. easy. }
    destruct X as (-> & X). replace (map (fun id => Lvar (d + id)) (fvr s2)) with (map (fun id => Lvar (zl (fls d) + id)) (fvr s2)) by (now rewrite zl_fls).
    eapply tr_fn; eauto; [|now apply dec_tl]. rewrite zl_fls by auto. intros id Hi. pose proof (dec_neg _ _ DF Hi) as N. split; auto. split; [auto|].
    intros H0. apply fls_at. lia.
  - (* let *)
    assert (A0 : lift_args (lftexp n) n e d args [] s = Ret (e', s') -> tr F FV (fls d) (Llet args e) e').
    { intros H0. apply (lft_let n IH FV d e Hd args [] [] s e' s'); auto. { cbn [length]. now rewrite Z.add_0_r. } constructor. }
    destruct args as [|x [|]]; try (apply A0; exact H). destruct e; try (apply A0; exact H). destruct es as [|[] l]; try (apply A0; exact H).
    destruct n0; destruct l; try (apply A0; exact H). mb H. injection H as <- <-. apply tr_let1. eapply IH; eauto.
  - mb H. mb H. injection H as <- <-.
    assert (DA : dec (fvr st)). { assert (QM : grows (mmapl (lftexp n (d + zl args)) args)) by (apply q_mmapl; intros; apply Q). eapply QM; eauto. }
    apply tr_letrec; rewrite <- fls_add by auto.
    + eapply lft_list; eauto; [lia | eapply incl_tran; [apply (Q _ _ _ _ _ E0) | auto] | eapply agree_incl; [apply (Q _ _ _ _ _ E0) | auto]].
    + eapply IH; eauto. lia.
  - mb H. injection H as <- <-. apply tr_prim. eapply lft_list; eauto.
  - mb H. mb H. injection H as <- <-. destruct (S1 _ _ _ _ _ Hd E D (QC _ _ _ _ _ E0)) as (T1 & D1). apply tr_case; auto. eapply lft_case; eauto.
  - mb H. mb H. injection H as <- <-. destruct (S1 _ _ _ _ _ Hd E D (QC _ _ _ _ _ E0)) as (T1 & D1). apply tr_switch; auto. eapply lft_case; eauto.
  - injection H as <- <-. constructor.
  - mb H. mb H. injection H as <- <-. destruct (S1 _ _ _ _ _ Hd E D (Q _ _ _ _ _ E0)) as (T1 & D1). destruct (S1 _ _ _ _ _ Hd E0 D1 (gr_refl _)) as (T2 & _). now constructor.
  - mb H. mb H. injection H as <- <-. destruct (S1 _ _ _ _ _ Hd E D (Q _ _ _ _ _ E0)) as (T1 & D1). destruct (S1 (d + 1) _ _ _ _ ltac:(lia) E0 D1 (gr_refl _)) as (T2 & _).
    apply tr_handle; auto. change [false] with (repeat false 1). now rewrite <- (fls_add d 1).
  - mb H. mb H. mb H. injection H as <- <-. destruct (S1 _ _ _ _ _ Hd E D (gr_trans _ _ _ (Q _ _ _ _ _ E0) (Q _ _ _ _ _ E1))) as (T1 & D1).
    destruct (S1 _ _ _ _ _ Hd E0 D1 (Q _ _ _ _ _ E1)) as (T2 & D2). destruct (S1 _ _ _ _ _ Hd E1 D2 (gr_refl _)) as (T3 & _). now constructor.
  - mb H. mb H. injection H as <- <-. destruct (S1 _ _ _ _ _ Hd E D (Q _ _ _ _ _ E0)) as (T1 & D1). destruct (S1 _ _ _ _ _ Hd E0 D1 (gr_refl _)) as (T2 & _). now constructor.
  - mb H. mb H. injection H as <- <-. destruct (S1 _ _ _ _ _ Hd E D (Q _ _ _ _ _ E0)) as (T1 & D1). destruct (S1 _ _ _ _ _ Hd E0 D1 (gr_refl _)) as (T2 & _). now constructor.
  - mb H. mb H. injection H as <- <-. destruct (S1 _ _ _ _ _ Hd E D (Q _ _ _ _ _ E0)) as (T1 & D1). destruct (S1 _ _ _ _ _ Hd E0 D1 (gr_refl _)) as (T2 & _). now constructor.
  - mb H. mb H. injection H as <- <-. destruct (S1 _ _ _ _ _ Hd E D (Q _ _ _ _ _ E0)) as (T1 & D1). destruct (S1 _ _ _ _ _ Hd E0 D1 (gr_refl _)) as (T2 & _). now constructor.
  - injection H as <- <-. constructor.
  - apply bind_inv in H as ([c l] & s1 & E & H). assert (X : e' = Lshared k).
    { destruct (l =? Nolabel); [|now injection H]. mb H. mb H. mb H. now injection H. } subst e'. constructor; constructor.
  - apply bind_inv in H as (u & s1 & E & H). mb H. injection H as <- <-. constructor; constructor.
Qed.
End Lft.
