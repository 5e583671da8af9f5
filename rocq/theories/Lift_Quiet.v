(** Without shared nodes the log of their uses stays empty. *)
From Verif Require Import Base Opcodes Back_Model Back_Spec Back_Frame Back_Comp Back_Lift Lift_Cap.

Definition quiet (s s' : bst) : Prop := sh s = [] -> sh s' = [] /\ seen s' = seen s.
Lemma quiet_refl s : quiet s s.
Proof. intros H. auto. Qed.
Lemma quiet_trans a b c : quiet a b -> quiet b c -> quiet a c.
Proof. intros H1 H2 H. destruct (H1 H) as (A & B). destruct (H2 A) as (C & D). split; congruence. Qed.
Notation qt := (rel quiet).
Lemma t_same {A} (m : M A) : (forall s a s', m s = Ret (a, s') -> sh s' = sh s /\ seen s' = seen s) -> qt m.
Proof. intros H s a s' E S. apply H in E as (E1 & E2). split; congruence. Qed.
Lemma t_ret {A} (a : A) : qt (mret a).
Proof. apply r_ret, quiet_refl. Qed.
Lemma t_bind {A B} (m : M A) (f : A -> M B) : qt m -> (forall a, qt (f a)) -> qt (mbind m f).
Proof. apply r_bind, quiet_trans. Qed.
Lemma t_fatal {A} : qt (@fatal A).
Proof. apply r_fatal. Qed.
Lemma t_mmapl {A B} (f : A -> M B) l : (forall a, qt (f a)) -> qt (mmapl f l).
Proof. intros H. apply r_mmapl; auto; [apply quiet_refl | apply quiet_trans]. Qed.
Lemma t_new : qt new_label.
Proof. apply t_same. now intros s a s' [= <- <-]. Qed.
Lemma t_newnot : qt newLabelNot.
Proof. apply t_same. now intros s a s' [= <- <-]. Qed.
Lemma t_label C : qt (labelCode C).
Proof. destruct C as [|i C]; [|destruct i]; cbn [labelCode]; first [apply t_ret | (apply t_bind; [apply t_new | intros; apply t_ret])]. Qed.
Lemma t_branch C : qt (makeBranch C).
Proof.
  assert (L : forall C, qt (let* l := new_label in mret (Kbranch l, Klabel l :: C))) by (intros; apply t_bind; [apply t_new | intros; apply t_ret]).
  destruct C as [|i C]; [apply L|]. destruct i; try apply L; try apply t_ret. destruct C as [|[] C]; apply t_ret.
Qed.
Lemma t_findEnv fv sz n : qt (findEnv fv sz n).
Proof. intros s a s' H. apply findEnv_inv in H as (-> & _). apply quiet_refl. Qed.
Lemma t_findStk sz n : qt (findStk sz n).
Proof. intros s a s' H. apply findStk_inv in H as (-> & _). apply quiet_refl. Qed.
Lemma t_bindEnv n z : qt (bindEnv n z).
Proof. apply t_same. intros s a s' H. apply bindEnv_inv in H as (_ & _ & _ & _ & _ & -> & _ & ->). auto. Qed.
Lemma t_switch t C : qt (add_SwitchTable t C).
Proof.
  unfold add_SwitchTable. destruct t as [|l0 r]; [apply r_raise; discriminate|]. destruct (forallb _ r); [|apply t_ret]. destruct C as [|i C]; [apply t_ret|]. destruct i; try apply t_ret. destruct (lbl =? l0); apply t_ret.
Qed.
Lemma t_upd t i l : qt (upd_table t i l).
Proof. apply t_same. intros s a s' H. apply upd_inv in H as (-> & _). auto. Qed.
Lemma t_lift {A} (o : outcome A) : qt (lift o).
Proof. apply t_same. intros s a s' H. apply lift_inv in H as (_ & ->). auto. Qed.
Lemma t_shared {A} k (f : lam * Z -> M A) : qt (mbind (get_sh k) f).
Proof. intros s a s' H S. apply bind_inv in H as (x & s1 & E & _). apply get_sh_inv in E as (_ & E). rewrite S in E. destruct k; discriminate. Qed.

Ltac tr1 := first [ apply t_ret | apply t_fatal | apply t_new | apply t_label | apply t_branch | apply t_findEnv | apply t_findStk | apply t_bindEnv | apply t_switch
  | apply t_upd | apply t_lift | apply t_shared | apply t_bind | progress intros | assumption ].
Ltac tr := repeat first [ tr1 | match goal with |- rel _ (let '(_, _) := ?x in _) => destruct x end | match goal with |- rel _ (if ?b then _ else _) => destruct b end ].

Section Parts.
Variable cx : Z * Z -> Z -> Z -> lam -> list instr -> M (list instr).
Hypothesis IH : forall sf sz dp e C, qt (cx sf sz dp e C).
Lemma t_rl sf dp l : forall sz C, qt (compExpList' cx sf sz dp l C).
Proof. induction l as [|e l IHl]; intros sz C; cbn [compExpList']; [tr|]. destruct l as [|e2 l]; [apply IH|]. tr; [apply IH | apply IHl]. Qed.
Lemma t_lr sf dp l : forall sz C, qt (compExpListLR cx sf sz dp l C).
Proof. induction l as [|e l IHl]; intros sz C; cbn [compExpListLR]; [tr|]. destruct l as [|e2 l]; [apply IH|]. tr; [apply IHl | apply IH]. Qed.
Lemma t_test2 sf sz dp c t f C : qt (compTest2 cx sf sz dp c t f C).
Proof. unfold compTest2. tr; apply IH. Qed.
Lemma t_tests sf sz dp cl C : qt (compTests cx sf sz dp cl C).
Proof.
  unfold compTests. tr. revert i l. induction cl as [|(t & e) cl IHc]; intros br C1; cbn [comp_tests]; [tr|]. destruct cl as [|c2 cl]; [tr; apply IH|].
  apply t_bind; [tr|]. intros lb. apply t_bind; [apply IHc|]. tr. apply IH.
Qed.
Lemma t_compSwitch sf sz dp v br C : qt (compSwitch cx sf sz dp v br C).
Proof. unfold compSwitch. apply t_bind; [|tr]. revert C. induction v as [|e v IHv]; intros C; cbn [comp_cases]; [tr|]. apply t_bind; [apply IHv|]. tr. apply IH. Qed.
Lemma t_decision sf sz dp t C : qt (compDecision cx sf sz dp t C).
Proof.
  unfold compDecision. tr. revert i l. induction t as [|dl IHl low act high dr IHr]; intros br C1; cbn [comp_dec]; [tr|].
  apply t_bind. { destruct dr; [tr|]. apply t_bind; [apply IHr | tr]. } intros [l1 C2].
  apply t_bind. { destruct dl; [tr|]. apply t_bind; [apply IHl | tr]. } intros [l2 C3].
  apply t_bind; [|tr]. destruct act as [|e [|]]; try apply t_compSwitch. apply IH.
Qed.
Lemma t_direct sf sz dp size cl C : qt (compDirectSwitch cx sf sz dp size cl C).
Proof.
  unfold compDirectSwitch. tr. revert i l. generalize (repeat (fst sf) (Z.to_nat size)). induction cl as [|(tg & e) cl IHc]; intros t br C1; cbn [comp_case]; [tr|].
  destruct cl as [|c2 cl]; [tr; apply IH|]. apply t_bind; [apply IHc|]. tr. apply IH.
Qed.
Lemma t_let sf na args b : forall sz dp C, qt (complet cx sf na sz dp args b C).
Proof. induction args as [|e args IHa]; intros sz dp C; cbn [complet]; [apply IH|]. apply t_bind; [tr|]. intros. apply t_bind; [apply IHa|]. intros. apply IH. Qed.
Lemma t_args sf na sz dp args b : forall i C, qt (comparg cx sf na sz dp i args b C).
Proof.
  induction args as [|e args IHa]; intros i C; cbn [comparg]; [apply IH|]. destruct e; try apply t_fatal. destruct p; try apply t_fatal. apply t_bind; [apply IHa|]. intros. apply IH.
Qed.
Lemma t_init sf na l args b : forall sz dp C, qt (initarg cx sf na sz dp l args b C).
Proof.
  induction l as [|e l IHl]; intros sz dp C; cbn [initarg]; [apply t_args|]. destruct e; try apply t_fatal. destruct p; try apply t_fatal. apply t_bind; [tr|]. intros. apply t_bind; [apply IHl | tr].
Qed.
End Parts.

Lemma t_compexp fv : forall n sf sz dp e C, qt (compexp n fv sf sz dp e C).
Proof.
  induction n as [|n IH]; intros sf sz dp e C; [apply r_raise; discriminate|].
  pose proof (t_rl _ IH) as RL. pose proof (t_lr _ IH) as LR.
  assert (B2 : forall A B (m : M A) (f : A -> M B), qt m -> (forall a, qt (f a)) -> qt (mbind m f)) by (intros; now apply t_bind).
  destruct e as [k | c | b args | b | args b | args b | q es | a cl | size a cl | | b h | b h | c t f | a b | c b | a b | a b | | k | k e].
  - cbn [compexp]. tr.
  - cbn [compexp]. tr.
  - cbn [compexp]. destruct (isReturn C); [|destruct (Z.of_nat (length args) <? 5)].
    + apply t_bind; [apply IH|]. intros. apply RL.
    + apply t_bind; [apply IH|]. intros. apply RL.
    + apply t_bind; [tr|]. intros []. apply t_bind; [apply IH|]. intros. apply t_bind; [apply RL|]. tr.
  - apply t_fatal.
  - cbn [compexp]. pose proof (t_let _ IH sf (Z.of_nat (length args)) args b sz dp C) as A.
    destruct args as [|a [|]]; try exact A. destruct b; try exact A. apply IH.
  - cbn [compexp]. pose proof (t_init _ IH sf (Z.of_nat (length args)) args args b sz dp C) as A.
    destruct args as [|a [|]]; try exact A; [|destruct a; try exact A; destruct p; exact A]. destruct a; try exact A. destruct p; try exact A.
    apply t_bind; [tr|]. intros. apply t_bind; [apply IH|]. intros. destruct es as [|[] es]; try apply t_fatal; [apply t_ret|]. destruct (_ =? dp); apply RL.
  - intros s O s' H. apply prim_inv in H as [-> L _ | e C1 H L _ | C1 H L _ | C1 H L _].
    + apply quiet_refl.
    + eapply IH; eauto.
    + eapply LR; eauto.
    + eapply RL; eauto.
  - cbn [compexp]. apply t_bind; [|intros; apply IH]. destruct cl as [|[c x] cl]; [now apply t_tests|]. destruct (int_like c); [|now apply t_tests].
    apply t_bind; [tr|]. intros. now apply t_decision.
  - intros s O s' H. apply sw_inv in H as [e H _ | t f H _ | H].
    + eapply IH; eauto.
    + eapply (t_test2 _ IH); eauto.
    + revert s O s' H. apply t_bind; [|intros; apply IH]. destruct (Z.of_nat (length cl) >=? size - 5); [now apply t_direct|]. apply t_bind; [tr|]. intros. now apply t_decision.
  - apply (t_ret (addPop (sz - snd sf) (Kbranch (fst sf) :: discardDeadCode C))).
  - cbn [compexp]. assert (A : qt (let* (branch1, C1) := makeBranch C in let* Ch := compexp n fv sf sz dp h C1 in let* (handle2, C2) := labelCode Ch in
                 compexp n fv (handle2, sz) sz dp b (branch1 :: discardDeadCode C2))).
    { apply t_bind; [tr|]. intros []. apply t_bind; [apply IH|]. intros. apply t_bind; [tr|]. intros []. apply IH. }
    destruct h; try exact A. apply IH.
  - cbn [compexp]. apply t_bind; [tr|]. intros []. apply t_bind; [tr|]. intros. apply t_bind; [tr|]. intros. apply t_bind; [apply IH|]. intros. apply t_bind; [apply IH|]. tr.
  - apply (t_test2 _ IH).
  - cbn [compexp]. apply t_bind; [apply IH|]. intros. apply IH.
  - cbn [compexp]. apply t_bind; [tr|]. intros. apply t_bind; [apply IH|]. intros. apply t_bind; [tr|]. intros []. apply t_bind; [apply IH|]. tr.
  - cbn [compexp]. assert (A : qt (let* lbl := new_label in let* C1 := compexp n fv sf sz dp b (Klabel lbl :: C) in compexp n fv sf sz dp a (Kstrictbranchifnot lbl :: C1))).
    { apply t_bind; [tr|]. intros. apply t_bind; [apply IH|]. intros. apply IH. }
    destruct C as [|i C]; [exact A|]. destruct i; try exact A; clear A; try (apply t_bind; [apply IH|]; intros; apply IH).
    apply t_bind; [tr|]. intros []. apply t_bind; [apply IH|]. intros. apply IH.
  - cbn [compexp]. assert (A : qt (let* lbl := new_label in let* C1 := compexp n fv sf sz dp b (Klabel lbl :: C) in compexp n fv sf sz dp a (Kstrictbranchif lbl :: C1))).
    { apply t_bind; [tr|]. intros. apply t_bind; [apply IH|]. intros. apply IH. }
    destruct C as [|i C]; [exact A|]. destruct i; try exact A; clear A; try (apply t_bind; [apply IH|]; intros; apply IH).
    apply t_bind; [tr|]. intros []. apply t_bind; [apply IH|]. intros. apply IH.
  - cbn [compexp]. tr.
  - cbn [compexp]. intros s O s' H S. mb H. apply note_inv in E as (_ & _ & _ & E & _). mb H. apply get_sh_inv in E0 as (_ & E0). rewrite E, S in E0. destruct k; discriminate.
  - cbn [compexp]. apply t_bind; [tr|]. intros. apply IH.
Qed.
Lemma t_rest cfuel : forall fuel C, qt (compileRest fuel cfuel C).
Proof.
  induction fuel as [|fuel IH]; intros C s O s' H; [discriminate|]. cbn [compileRest] in H. destruct (still s) as [|[[[[lbl nargs] fv] maxstk] e] rest]. { injection H as <- <-. apply quiet_refl. }
  intros S. revert H. generalize (if nargs >? 1 then fun C' => Krestart :: Klabel lbl :: Kgrab (nargs - 1) :: C' else fun C' => Klabel lbl :: C'). intros _.
  intros H. apply bind_inv in H as (u1 & s1 & E1 & H). injection E1 as _ <-. apply bind_inv in H as (u2 & s2 & E2 & H). apply bind_inv in H as (C' & s3 & E3 & H).
  assert (Q2 : forall k a sz, qt (inienv k a sz)). { induction k; intros a sz; cbn [inienv]; tr. apply IHk. }
  destruct (Q2 _ _ _ _ _ _ E2 S) as (A1 & A2). destruct (t_compexp _ _ _ _ _ _ _ _ _ _ E3 A1) as (B1 & B2).
  destruct (IH _ _ _ _ H B1) as (D1 & D2). split; auto. rewrite D2, B2, A2. reflexivity.
Qed.

(** UNdeBruijn makes no shared nodes *)
Definition samesh (s s' : bst) : Prop := length (sh s') = length (sh s).
Lemma ss_refl s : samesh s s. Proof. reflexivity. Qed.
Lemma ss_trans a b c : samesh a b -> samesh b c -> samesh a c. Proof. unfold samesh. congruence. Qed.
Notation ss := (rel samesh).
Lemma s_same {A} (m : M A) : (forall s a s', m s = Ret (a, s') -> length (sh s') = length (sh s)) -> ss m.
Proof. intros H s a s' E. apply H in E. exact E. Qed.
Lemma set_len {A} (l : list A) : forall k x, length (set_nth l k x) = length l.
Proof. induction l as [|y l IH]; intros [|k] x; cbn; auto. Qed.
Lemma s_set_exp k e : ss (set_sh_exp k e).
Proof. apply s_same. unfold set_sh_exp. intros s a s' H. destruct (nth_error (sh s) k) as [[c l]|] eqn:E; [|discriminate]. injection H as <- <-. apply set_len. Qed.
Lemma s_set_lbl k : ss (fun s => set_sh_lbl k (lnot s) s).
Proof. apply s_same. unfold set_sh_lbl. intros s a s' H. destruct (nth_error (sh s) k) as [[c l]|] eqn:E; [|discriminate]. injection H as <- <-. apply set_len. Qed.
Lemma s_opt_refs n l b i acc : ss (opt_refs n b i l acc).
Proof. apply r_opt_refs; [apply ss_refl | apply ss_trans | | apply s_set_exp | apply s_set_lbl]. apply s_same. now intros s a s' [= <- <-]. Qed.
Lemma s_fresh {A} (m : M A) : ss m -> ss (fresh_refs m).
Proof. intros H s a s' E. unfold fresh_refs in E. destruct (m _) as [[b s1]| | |] eqn:Em; try discriminate. injection E as <- <-. apply H in Em. exact Em. Qed.
Lemma s_liftbd lft d e : (forall d e, ss (lft d e)) -> ss (liftbd lft d e).
Proof.
  intros H. apply r_bind; [apply ss_trans | auto|]. intros e'. intros s r s' E. apply bind_inv in E as (lbl & s1 & E1 & E). injection E1 as <- <-. injection E as <- <-. reflexivity.
Qed.
Lemma s_liftfn lft e : (forall d e, ss (lft d e)) -> forall d, ss (liftfn lft d e).
Proof. intros H. induction e; intros d; try (now apply s_liftbd). cbn [liftfn]. apply IHe. Qed.
Lemma s_lftexp : forall n d e, ss (lftexp n d e).
Proof.
  pose proof (@r_ret _ ss_refl) as Pr. pose proof (@r_bind _ ss_trans) as Pb. pose proof (@r_mmapl _ ss_refl ss_trans) as Pm.
  induction n as [|n IH]; intros d e; [apply r_raise; discriminate|]. cbn [lftexp].
  apply Pb. { apply s_same. intros s a s' [= <- <-]. destruct (d >? mdr s); auto. } intros _.
  assert (C : forall T (cl : list (T * lam)), ss (mmapl (fun '(t, a) => let* a0 := lftexp n d a in mret (t, a0)) cl)).
  { intros T cl. apply Pm. intros [t a] _. apply Pb; auto. }
  assert (L : forall d es, ss (mmapl (lftexp n d) es)) by (intros; apply Pm; auto).
  assert (X : forall i, ss (extClo i)) by (intros i; apply s_same; intros s a s' [= <- <-]; destruct (i >=? 0); auto).
  destruct e; try apply Pr.
  - apply Pb; auto.
  - apply Pb; [auto|]. intros. apply Pb; auto.
  - apply Pb; [apply s_fresh, s_liftfn; auto|]. intros [q e']. destruct (q >? 0); auto.
  - assert (A : ss (lift_args (lftexp n) n e d args [])).
    { generalize (@nil lam) as acc. generalize d. induction args as [|x l IHl]; intros d1 acc; cbn [lift_args]; (apply Pb; [auto|]; intros); [apply s_opt_refs | apply IHl]. }
    destruct args as [|x [|]]; try exact A. destruct e; try exact A. destruct es as [|[] l]; try exact A.
    destruct n0; destruct l; try exact A. apply Pb; auto.
  - apply Pb; [auto|]. intros. apply Pb; auto.
  - apply Pb; auto.
  - apply Pb; [auto|]. intros. apply Pb; auto.
  - apply Pb; [auto|]. intros. apply Pb; auto.
  - apply Pb; [auto|]. intros. apply Pb; auto.
  - apply Pb; [auto|]. intros. apply Pb; auto.
  - apply Pb; [auto|]. intros. apply Pb; [auto|]. intros. apply Pb; auto.
  - apply Pb; [auto|]. intros. apply Pb; auto.
  - apply Pb; [auto|]. intros. apply Pb; auto.
  - apply Pb; [auto|]. intros. apply Pb; auto.
  - apply Pb; [auto|]. intros. apply Pb; auto.
  - apply Pb; [apply (r_get_sh _ ss_refl)|]. intros [c l]. apply (r_if _ (fun _ => l =? Nolabel)); [|apply Pr].
    apply r_at; [apply ss_trans | apply s_set_lbl|]. intros. apply Pb; [auto|]. intros. apply Pb; [apply s_set_exp | auto].
  - apply Pb; [auto|]. intros. apply Pb; auto.
Qed.
Lemma s_undb fuel e : ss (UNdeBruijn fuel e).
Proof.
  unfold UNdeBruijn. apply s_fresh. assert (X : ss (let* e' := lftexp fuel 0 e in fun s => Ret ((Z.of_nat (length (fvr s)), e'), s))).
  { apply r_bind; [apply ss_trans | apply s_lftexp|]. intros e' s0 a s' [= <- <-]. reflexivity. }
  destruct e; try exact X. apply s_liftfn. apply s_lftexp.
Qed.
