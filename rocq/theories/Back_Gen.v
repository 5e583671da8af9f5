(** The code generator produces code in the relation [cmp], if the uses of every shared node agree. *)
From Verif Require Import Base Opcodes Back_Model Back_Spec Back_Rel Back_Frame Back_Comp.

(** two continuations do the same *)
Definition goesb (C : list instr) : option Z :=
  match C with Kbranch l :: _ => Some l | Klabel l :: _ => Some l | _ => None end.
Definition contlike (C C' : list instr) : Prop :=
  C = C' \/ (exists n, head_ret C = Some n /\ head_ret C' = Some n)
  \/ (head_ret C = None /\ head_ret C' = None /\ exists l, goesb C = Some l /\ goesb C' = Some l)
  \/ (exists D D', C = Kraise :: D /\ C' = Kraise :: D').
(** all uses of a shared node are in the same function, with the same variables, handler and continuation *)
Definition shared_ok (S : list visit) : Prop :=
  forall v v', In v S -> In v' S -> v_k v = v_k v' ->
    v_u v = v_u v' /\ v_sf v = v_sf v' /\ v_sz v = v_sz v' /\ v_vs v = v_vs v' /\ contlike (v_C v) (v_C v').

Definition vsd (dp : Z) (s : bst) : list Z := firstn (Z.to_nat dp) (va s).

Section Gen.
Variable P : list instr.
Variable K : list instr.
Variable fv : list Z.
Variable shc : nat -> option lam.
Variable S : list visit.                 (* the final log *)
Variable L : Z.                          (* the length of the array of stack slots *)
Variable U : nat.                        (* the function *)
Hypothesis SOK : shared_ok S.
Notation nf := (fun _ : lam => False).
Notation cmp := (cmp P K fv shc nf).
Notation cmp_rl := (cmp_rl P K fv shc nf).
Notation cmp_lr := (cmp_lr P K fv shc nf).
Notation cmp_let := (cmp_let P K fv shc nf).
Notation cmp_init := (cmp_init P K fv shc nf).
Notation cmp_args := (cmp_args P K fv shc nf).
Notation cmp_test2 := (cmp_test2 P K fv shc nf).
Notation cmp_tests := (cmp_tests P K fv shc nf).
Notation cmp_cases := (cmp_cases P K fv shc nf).
Notation cmp_dec := (cmp_dec P K fv shc nf).
Notation cmp_side := (cmp_side P K fv shc nf).
Notation cmp_act := (cmp_act P K fv shc nf).
Notation cmp_decision := (cmp_decision P K fv shc nf).
Notation cmp_case := (cmp_case P K fv shc nf).
Notation lab := (lab P K).
Notation mbr := (mbr P K).
Notation swt := (swt P K).

(** the labels of the code stand for what follows them *)
Definition cov (O : list instr) : Prop := forall l D, In (Some l, D) (lsufs O) -> target P l = D ++ K.
Lemma cov_fr dp C s O s' : fr dp C s O s' -> cov O -> cov C.
Proof. intros ((_ & N & E & _) & _) H l D HI. apply H. rewrite E. apply in_or_app. auto. Qed.
Lemma cov_eq C O : lsufs C = lsufs O -> cov O -> cov C.
Proof. unfold cov. now intros ->. Qed.
Lemma cov_cons i C : cov (i :: C) -> cov C.
Proof. intros H l D HI. apply H. destruct i; cbn; auto. Qed.
Lemma cov_lab l C : cov (Klabel l :: C) -> target P l = C ++ K.
Proof. intros H. apply H. cbn. auto. Qed.

(** the shared nodes with code stand for it *)
Definition shi (s : bst) : Prop := forall k c l, nth_error (sh s) k = Some (c, l) -> shc k = Some c /\
  (0 <= l -> exists v, In v (seen s) /\ v_k v = k /\
     (v_u v = U -> cov (v_C v) /\ exists Cc C1, cmp (v_sf v) (v_sz v) (v_vs v) c (v_C v) Cc /\ lab Cc l C1)).
Definition inv (s : bst) : Prop := Z.of_nat (length (va s)) = L /\ length (still s) = U /\ shi s.
Lemma shi_same s s' : sh s' = sh s -> (exists n, seen s' = n ++ seen s) -> shi s -> shi s'.
Proof.
  intros E (n & E2) H k c l HN. rewrite E in HN. destruct (H _ _ _ HN) as (A & B). split; auto. intros H0. destruct (B H0) as (v & B1 & B2).
  exists v. split; auto. rewrite E2. apply in_or_app. auto.
Qed.
Lemma inv_same dp s s' : frs dp s s' -> sh s' = sh s -> inv s -> inv s'.
Proof. intros (_ & A & _ & B & n & C & _) E (H1 & H2 & H3). split; [congruence|]. split; [congruence|]. eapply shi_same; eauto. Qed.
Lemma vsd_fr dp C s O s' vs : fr dp C s O s' -> vsd dp s = vs -> vsd dp s' = vs.
Proof. intros (_ & A & _) <-. exact A. Qed.
Lemma vsd_le dp dp' s s' : vsd dp' s = vsd dp' s' -> dp <= dp' -> vsd dp s = vsd dp s'.
Proof.
  unfold vsd. intros H LE. apply (f_equal (firstn (Z.to_nat dp))) in H. rewrite !firstn_firstn in H. now rewrite !Nat.min_l in H by lia.
Qed.
Lemma vsd_len dp s : inv s -> 0 <= dp <= L -> zlen (vsd dp s) = dp.
Proof. intros (A & _) H. unfold vsd, zlen. rewrite firstn_length. lia. Qed.
Lemma incl_fr dp C s O s' : fr dp C s O s' -> incl (seen s') S -> incl (seen s) S.
Proof. intros (_ & _ & _ & _ & _ & n & E & _) H x Hx. apply H. rewrite E. apply in_or_app. auto. Qed.

(** labels and branches *)
Lemma label_ok C s l C1 s' : labelCode C s = Ret ((l, C1), s') -> inv s -> cov C1 -> lab C l C1 /\ inv s' /\ seen s' = seen s /\ va s' = va s.
Proof.
  intros H HI HC.
  assert (D : (s' = s /\ ((exists D, C = Kbranch l :: D) \/ (exists D, C = Klabel l :: D)) /\ C1 = C) \/ (new_label s = Ret (l, s') /\ C1 = Klabel l :: C)).
  { destruct C as [|i C]; [right|destruct i; try (right; injection H as <- <- <-; split; reflexivity); left; injection H as <- <- <-; eauto 10]. injection H as <- <- <-. split; reflexivity. }
  destruct D as [(-> & [(D & ->) | (D & ->)] & ->) | (E & ->)].
  - split; auto. constructor.
  - split; auto. constructor. now apply cov_lab.
  - apply new_label_inv in E as (-> & _ & F & E1 & E2 & E3 & _). split; [|split; [eapply inv_same; eauto using (F 0) | auto]]. constructor. now apply cov_lab.
Qed.
Lemma branch_ok C s b C1 s' : makeBranch C s = Ret ((b, C1), s') -> inv s -> cov C1 -> mbr C b C1 /\ inv s' /\ nolab b /\ seen s' = seen s /\ va s' = va s.
Proof.
  intros H HI HC.
  assert (D : (s' = s /\ C1 = C /\ nolab b /\ mbr C b C) \/ (exists l, isReturn C = false /\ new_label s = Ret (l, s') /\ C1 = Klabel l :: C /\ b = Kbranch l)).
  { destruct C as [|i C]. { right. injection H as <- <- <-. eexists. repeat split. }
    destruct i; try (right; injection H as <- <- <-; eexists; repeat split; fail); left; try (injection H as <- <- <-; repeat split; constructor; fail).
    assert (A : s' = s /\ C1 = Klabel lbl :: C /\ ((exists n D, C = Kreturn n :: D /\ b = Kreturn n) \/ (forall n C', C <> Kreturn n :: C') /\ b = Kbranch lbl)).
    { destruct C as [|[] C]; injection H as <- <- <-; repeat split; try (right; split; [congruence | reflexivity]). left. eauto. }
    destruct A as (-> & -> & [(n & D & -> & ->) | (N & ->)]); repeat split; constructor; auto. now apply cov_lab. }
  destruct D as [(-> & -> & N & M) | (l & R & E & -> & ->)]; [split; [exact M|]; split; [exact HI|]; auto|].
  apply new_label_inv in E as (-> & _ & F & E1 & E2 & E3 & _). split; [|split; [eapply inv_same; eauto using (F 0) | split; [exact I | auto]]]. constructor; auto. now apply cov_lab.
Qed.
Lemma switch_ok t C s O s' : add_SwitchTable t C s = Ret (O, s') -> cov O -> swt t C O /\ s' = s.
Proof.
  unfold add_SwitchTable. destruct t as [|l0 r]; [discriminate|]. destruct (forallb _ r) eqn:E.
  2:{ intros [= <- <-] _. split; auto. constructor. }
  assert (A : Forall (eq l0) r). { rewrite forallb_forall in E. apply Forall_forall. intros x Hx. apply E in Hx. lia. }
  assert (B : mret (Kbranch l0 :: discardDeadCode C) s = Ret (O, s') -> cov O -> swt (l0 :: r) C O /\ s' = s).
  { intros [= <- <-] _. split; auto. now constructor. }
  destruct C as [|i C]; auto. destruct i; auto. destruct (lbl =? l0) eqn:EL; auto. apply Z.eqb_eq in EL as ->. intros [= <- <-] HC. split; auto.
  constructor; auto. now apply cov_lab.
Qed.

Definition genC (cx : cxt) : Prop :=
  forall sf sz dp e C s O s' vs, cx sf sz dp e C s = Ret (O, s') -> 0 <= snd sf <= sz -> 0 <= dp <= L -> vsd dp s = vs -> inv s -> cov O -> incl (seen s') S ->
    cmp sf sz vs e C O /\ inv s' /\ vsd dp s' = vs.

(** one step: the facts that hold before it, from those that hold after it *)
Ltac bk F := first [ match type of F with fr _ ?C ?s ?O ?s' =>
    match goal with H : cov O |- _ => let X := fresh "CV" in pose proof (cov_fr _ _ _ _ _ F H) as X end;
    match goal with H : incl (seen s') S |- _ => let X := fresh "IN" in pose proof (incl_fr _ _ _ _ _ F H) as X end end ].

Section Lists.
Variable cx : cxt.
Hypothesis FR : frC cx.
Hypothesis IH : genC cx.

Lemma gen_rl sf dp l : forall sz C s O s' vs, compExpList' cx sf (sz + zlen l - 1) dp l C s = Ret (O, s') -> 0 <= snd sf <= sz -> 0 <= dp <= L -> vsd dp s = vs -> inv s -> cov O -> incl (seen s') S ->
  cmp_rl sf sz vs l C O /\ inv s' /\ vsd dp s' = vs.
Proof.
  induction l as [|e l IHl]; intros sz C s O s' vs H Hsf Hdp HV HI HC HN; cbn [compExpList'] in H. { mret H. split; [constructor|]. split; assumption. }
  destruct l as [|e2 l].
  - replace (sz + zlen [e] - 1) with sz in H by (change (zlen [e]) with 1; lia).
    destruct (IH _ _ _ _ _ _ _ _ _ H Hsf Hdp HV HI HC HN) as (A & B & D). split; auto. now constructor.
  - mb H. remember (e2 :: l) as r eqn:Er. assert (Hr : r <> []) by (now subst). clear Er e2 l.
    replace (sz + zlen (e :: r) - 1 - 1) with (sz + zlen r - 1) in H by (unfold zlen; cbn [length]; lia).
    replace (sz + zlen (e :: r) - 1) with (sz + zlen r) in E by (unfold zlen; cbn [length]; lia).
    pose proof (fr_rl _ FR _ _ _ _ _ _ _ _ H) as F. bk F. apply cov_cons in CV. assert (0 <= zlen r) by (unfold zlen; lia).
    destruct (IH _ _ _ _ _ _ _ _ _ E ltac:(lia) Hdp HV HI CV IN) as (A & B & D).
    destruct (IHl _ _ _ _ _ _ H Hsf Hdp D B HC HN) as (A' & B' & D'). split; auto. econstructor; eauto.
Qed.
Lemma gen_lr sf dp l : forall sz C s O s' vs, compExpListLR cx sf sz dp l C s = Ret (O, s') -> 0 <= snd sf <= sz -> 0 <= dp <= L -> vsd dp s = vs -> inv s -> cov O -> incl (seen s') S ->
  cmp_lr sf sz vs l C O /\ inv s' /\ vsd dp s' = vs.
Proof.
  induction l as [|e l IHl]; intros sz C s O s' vs H Hsf Hdp HV HI HC HN; cbn [compExpListLR] in H. { mret H. split; [constructor|]. split; assumption. }
  destruct l as [|e2 l].
  - destruct (IH _ _ _ _ _ _ _ _ _ H Hsf Hdp HV HI HC HN) as (A & B & D). split; auto. now constructor.
  - mb H. remember (e2 :: l) as r eqn:Er. assert (Hr : r <> []) by (now subst). clear Er e2 l.
    pose proof (FR _ _ _ _ _ _ _ _ H) as F. bk F. apply cov_cons in CV.
    destruct (IHl _ _ _ _ _ _ E ltac:(lia) Hdp HV HI CV IN) as (A & B & D).
    destruct (IH _ _ _ _ _ _ _ _ _ H Hsf Hdp D B HC HN) as (A' & B' & D'). split; auto. econstructor; eauto.
Qed.
Lemma is_fail_inv e : is_fail e = true -> e = Lstaticfail.
Proof. destruct e; easy. Qed.
Lemma gen_test2 sf sz dp c t f C s O s' vs : compTest2 cx sf sz dp c t f C s = Ret (O, s') -> 0 <= snd sf <= sz -> 0 <= dp <= L -> vsd dp s = vs -> inv s -> cov O -> incl (seen s') S ->
  cmp_test2 sf sz vs c t f C O /\ inv s' /\ vsd dp s' = vs.
Proof.
  unfold compTest2. destruct sf as (l & z). intros H Hsf Hdp HV HI HC HN. mb H. pose proof (FR _ _ _ _ _ _ _ _ H) as F. bk F.
  destruct (is_fail t && (sz =? z)) eqn:ET; [|destruct (is_fail f && (sz =? z)) eqn:EF].
  - apply andb_true_iff in ET as (ET & ES). apply is_fail_inv in ET as ->. mb E. mret E. apply cov_cons in CV.
    destruct (IH _ _ _ _ _ _ _ _ _ E0 Hsf Hdp HV HI CV IN) as (A & B & D).
    destruct (IH _ _ _ _ _ _ _ _ _ H Hsf Hdp D B HC HN) as (A' & B' & D'). split; auto. eapply t2_so; eauto. cbn. lia.
  - apply andb_true_iff in EF as (EF & ES). apply is_fail_inv in EF as ->. mb E. mret E. apply cov_cons in CV.
    destruct (IH _ _ _ _ _ _ _ _ _ E0 Hsf Hdp HV HI CV IN) as (A & B & D).
    destruct (IH _ _ _ _ _ _ _ _ _ H Hsf Hdp D B HC HN) as (A' & B' & D'). split; auto. eapply t2_not; eauto. cbn. lia.
  - mb E. mb E. mb E. mb E. mret E. apply cov_cons in CV.
    pose proof (FR _ _ _ _ _ _ _ _ E3) as F3. bk F3. apply cov_cons in CV0. pose proof (cov_eq _ _ (eq_sym (lsufs_discard _)) CV0) as CV1.
    pose proof (fr_label _ _ _ _ _ dp E2) as F2. bk F2.
    pose proof (FR _ _ _ _ _ _ _ _ E1) as F1. bk F1.
    destruct (branch_ok _ _ _ _ _ E0 HI CV3) as (MB & I0 & _ & _ & V0). unfold vsd in HV. rewrite <- V0 in HV.
    destruct (IH _ _ _ _ _ _ _ _ _ E1 Hsf Hdp HV I0 CV2 IN1) as (A1 & B1 & D1).
    destruct (label_ok _ _ _ _ _ E2 B1 CV1) as (LB & I2 & _ & V2). unfold vsd in D1. rewrite <- V2 in D1.
    destruct (IH _ _ _ _ _ _ _ _ _ E3 Hsf Hdp D1 I2 CV IN) as (A3 & B3 & D3).
    destruct (IH _ _ _ _ _ _ _ _ _ H Hsf Hdp D3 B3 HC HN) as (A' & B' & D'). split; auto. eapply t2; eauto.
Qed.

Lemma cov_dis C : cov (discardDeadCode C) -> cov C.
Proof. apply cov_eq. symmetry. apply lsufs_discard. Qed.
Lemma gen_tests sf sz dp br C1 vs cl : 0 <= snd sf <= sz -> 0 <= dp <= L -> nolab br -> forall s O s',
  comp_tests cx sf sz dp br C1 (map (fun '(c, e) => (testForAtom c, e)) cl) s = Ret (O, s') -> vsd dp s = vs -> inv s -> cov O -> incl (seen s') S ->
  cmp_tests sf sz vs br C1 cl O /\ inv s' /\ vsd dp s' = vs.
Proof.
  intros Hsf Hdp NL. induction cl as [|(c & e) cl IHc]; intros s O s' H HV HI HC HN; cbn [comp_tests map] in H; [discriminate|].
  destruct cl as [|c2 cl].
  - cbn [map] in H. mb H. mret H. apply cov_cons in HC. destruct (IH _ _ _ _ _ _ _ _ _ E Hsf Hdp HV HI HC HN) as (A & B & D). split; auto. now constructor.
  - remember (c2 :: cl) as r eqn:Er. assert (Hr : r <> []) by (now subst).
    assert (H' : (let* lbl := new_label in let* Cr := comp_tests cx sf sz dp br C1 (map (fun '(c, e) => (testForAtom c, e)) r) in
                  let* Ce := cx sf sz dp e (br :: Klabel lbl :: Cr) in mret (Ktest (testForAtom c) lbl :: Ce)) s = Ret (O, s')) by (rewrite Er in *; exact H).
    clear H Er c2 cl. mb H'. mb H'. mb H'. mret H'. apply cov_cons in HC.
    pose proof (FR _ _ _ _ _ _ _ _ E1) as F1. bk F1. apply cov_cons in CV. pose proof (cov_lab _ _ CV) as TG. apply cov_cons in CV.
    apply new_label_inv in E as (-> & _ & FL & V1 & V2 & V3 & _). unfold vsd in HV. rewrite <- V1 in HV.
    assert (I0 : inv st) by (eapply inv_same; [apply (FL 0) | auto | auto]).
    destruct (IHc _ _ _ E0 HV I0 CV IN) as (A & B & D).
    destruct (IH _ _ _ _ _ _ _ _ _ E1 Hsf Hdp D B HC HN) as (A' & B' & D'). split; auto. econstructor; eauto.
Qed.
Lemma gen_cases sf sz dp br C vs v : 0 <= snd sf <= sz -> 0 <= dp <= L -> nolab br -> forall s t O s',
  comp_cases cx sf sz dp br C v s = Ret ((t, O), s') -> vsd dp s = vs -> inv s -> cov O -> incl (seen s') S ->
  cmp_cases sf sz vs br C v t O /\ inv s' /\ vsd dp s' = vs.
Proof.
  intros Hsf Hdp NL. induction v as [|e v IHv]; intros s t O s' H HV HI HC HN; cbn [comp_cases] in H.
  { injection H as <- <- <-. split; [constructor|]. split; assumption. }
  mb H. mb H. mb H. injection H as <- <- <-.
  pose proof (fr_label _ _ _ _ _ dp E1) as F1. bk F1. pose proof (FR _ _ _ _ _ _ _ _ E0) as F0. bk F0. apply cov_cons, cov_dis in CV0.
  destruct (IHv _ _ _ _ E HV HI CV0 IN0) as (A & B & D).
  destruct (IH _ _ _ _ _ _ _ _ _ E0 Hsf Hdp D B CV IN) as (A' & B' & D').
  destruct (label_ok _ _ _ _ _ E1 B' HC) as (LB & I2 & _ & V2). unfold vsd in *. rewrite V2. split; auto. econstructor; eauto.
Qed.
Lemma gen_switch sf sz dp br C vs v s O s' : 0 <= snd sf <= sz -> 0 <= dp <= L -> nolab br ->
  compSwitch cx sf sz dp v br C s = Ret (O, s') -> vsd dp s = vs -> inv s -> cov O -> incl (seen s') S ->
  cmp_act sf sz vs br v C O /\ inv s' /\ vsd dp s' = vs.
Proof.
  intros Hsf Hdp NL H HV HI HC HN. unfold compSwitch in H. mb H. pose proof (switch_inv _ _ _ _ _ dp H) as F. bk F. apply cov_dis in CV.
  destruct (switch_ok _ _ _ _ _ H HC) as (SW & ->).
  destruct (gen_cases _ _ _ _ _ _ _ Hsf Hdp NL _ _ _ _ E HV HI CV HN) as (A & B & D). split; auto. econstructor; eauto.
Qed.
Lemma gen_dec sf sz dp br vs t : 0 <= snd sf <= sz -> 0 <= dp <= L -> nolab br -> forall C s O s',
  comp_dec cx sf sz dp br t C s = Ret (O, s') -> vsd dp s = vs -> inv s -> cov O -> incl (seen s') S ->
  cmp_dec sf sz vs br t C O /\ inv s' /\ vsd dp s' = vs.
Proof.
  intros Hsf Hdp NL. induction t as [|dl IHl low act high dr IHr]; intros C s O s' H HV HI HC HN; cbn [comp_dec] in H.
  { mret H. split; [constructor|]. split; assumption. }
  mb H. mb H. mb H. mret H. apply cov_cons in HC.
  assert (FA : fr dp l0 st0 a st1). { destruct act as [|e [|]]; try (eapply (fr_switch _ FR); eauto; fail). apply FR in E1. eapply fr_eqC; [|exact E1]. rewrite lsufs_cons by auto. apply lsufs_discard. }
  bk FA.
  assert (FL : fr dp l st l0 st0). { destruct dl. { injection E0 as <- <- <-. apply fr_refl. } mb E0. apply (fr_dec _ FR) in E2; auto. eapply fr_trans; [exact E2|]. eapply fr_label; eauto. }
  bk FL.
  assert (SR : cmp_side sf sz vs br dr C z l /\ inv st /\ vsd dp st = vs).
  { destruct dr. { injection E as <- <- <-. split; [constructor|]. split; assumption. } mb E.
    pose proof (fr_label _ _ _ _ _ dp E) as F1. bk F1. destruct (IHr _ _ _ _ E2 HV HI CV1 IN1) as (A & B & D).
    destruct (label_ok _ _ _ _ _ E B CV0) as (LB & I2 & _ & V2). unfold vsd in *. rewrite V2. split; auto. econstructor; eauto. }
  destruct SR as (SR & I1 & V1).
  assert (SL : cmp_side sf sz vs br dl l z0 l0 /\ inv st0 /\ vsd dp st0 = vs).
  { destruct dl. { injection E0 as <- <- <-. split; [constructor|]. split; assumption. } mb E0.
    pose proof (fr_label _ _ _ _ _ dp E0) as F1. bk F1. destruct (IHl _ _ _ _ E2 V1 I1 CV1 IN1) as (A & B & D).
    destruct (label_ok _ _ _ _ _ E0 B CV) as (LB & I2 & _ & V2). unfold vsd in *. rewrite V2. split; auto. econstructor; eauto. }
  destruct SL as (SL & I2 & V2).
  assert (SA : cmp_act sf sz vs br act l0 a /\ inv st1 /\ vsd dp st1 = vs).
  { destruct act as [|e [|]]; try (eapply gen_switch; eauto; fail). destruct (IH _ _ _ _ _ _ _ _ _ E1 Hsf Hdp V2 I2 HC HN) as (A & B & D). split; auto. now constructor. }
  destruct SA as (SA & I3 & V3). split; auto. econstructor; eauto.
Qed.
Lemma gen_decision sf sz dp t C s O s' vs : compDecision cx sf sz dp t C s = Ret (O, s') -> 0 <= snd sf <= sz -> 0 <= dp <= L -> vsd dp s = vs -> inv s -> cov O -> incl (seen s') S ->
  cmp_decision sf sz vs t C O /\ inv s' /\ vsd dp s' = vs.
Proof.
  intros H Hsf Hdp HV HI HC HN. unfold compDecision in H. mb H. destruct (fr_branch _ _ _ _ _ dp E) as (FB & NL). destruct (negb (sz =? snd sf)) eqn:ES; [discriminate|].
  pose proof (fr_dec _ FR _ _ _ _ _ NL _ _ _ _ H) as F. bk F.
  destruct (branch_ok _ _ _ _ _ E HI CV) as (MB & I0 & _ & _ & V0). unfold vsd in HV. rewrite <- V0 in HV.
  destruct (gen_dec _ _ _ _ _ _ Hsf Hdp NL _ _ _ _ H HV I0 HC HN) as (A & B & D). split; auto. econstructor; eauto. lia.
Qed.
Lemma gen_case sf sz dp br C1 vs cl : 0 <= snd sf <= sz -> 0 <= dp <= L -> nolab br -> forall t s t' O s',
  comp_case cx sf sz dp br C1 t cl s = Ret ((t', O), s') -> vsd dp s = vs -> inv s -> cov O -> incl (seen s') S ->
  cmp_case sf sz vs br C1 t cl t' O /\ inv s' /\ vsd dp s' = vs.
Proof.
  intros Hsf Hdp NL. induction cl as [|(tg & e) cl IHc]; intros t s t' O s' H HV HI HC HN; cbn [comp_case] in H; [discriminate|].
  destruct cl as [|c2 cl].
  - mb H. mb H. mb H. injection H as <- <- <-. apply upd_inv in E1 as (-> & R1 & ->).
    pose proof (fr_label _ _ _ _ _ dp E0) as F0. bk F0. destruct (IH _ _ _ _ _ _ _ _ _ E Hsf Hdp HV HI CV IN) as (A & B & D).
    destruct (label_ok _ _ _ _ _ E0 B HC) as (LB & I2 & _ & V2). unfold vsd in *. rewrite V2. split; auto. econstructor; eauto.
  - remember (c2 :: cl) as r eqn:Er. assert (Hr : r <> []) by (now subst). clear Er.
    mb H. mb H. mb H. mb H. injection H as <- <- <-. apply upd_inv in E2 as (-> & R1 & ->).
    pose proof (fr_label _ _ _ _ _ dp E1) as F1. bk F1. pose proof (FR _ _ _ _ _ _ _ _ E0) as F0. bk F0. apply cov_cons, cov_dis in CV0.
    destruct (IHc _ _ _ _ _ E HV HI CV0 IN0) as (A & B & D).
    destruct (IH _ _ _ _ _ _ _ _ _ E0 Hsf Hdp D B CV IN) as (A' & B' & D').
    destruct (label_ok _ _ _ _ _ E1 B' HC) as (LB & I2 & _ & V2). unfold vsd in *. rewrite V2. split; auto. econstructor; eauto.
Qed.
Lemma gen_direct sf sz dp size a cl C s O s' vs : compDirectSwitch cx sf sz dp size cl C s = Ret (O, s') -> 0 <= snd sf <= sz -> 0 <= dp <= L -> vsd dp s = vs -> inv s -> cov O -> incl (seen s') S ->
  (forall O', cmp sf sz vs a (Kprim Ptag_of :: O) O' -> cmp sf sz vs (Lswitch size a cl) C O') /\ inv s' /\ vsd dp s' = vs.
Proof.
  intros H Hsf Hdp HV HI HC HN. unfold compDirectSwitch in H. mb H. destruct (fr_branch _ _ _ _ _ dp E) as (FB & NL).
  destruct (negb (sz =? snd sf) && negb (size =? Z.of_nat (length cl))) eqn:ES; [discriminate|]. mb H.
  pose proof (switch_inv _ _ _ _ _ dp H) as F. bk F. apply cov_dis in CV. destruct (switch_ok _ _ _ _ _ H HC) as (SW & ->).
  pose proof (fr_case _ FR _ _ _ _ _ _ NL _ _ _ _ _ E0) as F0. bk F0.
  destruct (branch_ok _ _ _ _ _ E HI CV0) as (MB & I0 & _ & _ & V0). unfold vsd in HV. rewrite <- V0 in HV.
  destruct (gen_case _ _ _ _ _ _ _ Hsf Hdp NL _ _ _ _ _ E0 HV I0 CV IN) as (A & B & D). split; auto. intros O' HO. eapply c_switch_direct; eauto. unfold zlen. lia.
Qed.
Lemma bind_ok dp z s d s' vs : bindEnv dp z s = Ret (d, s') -> inv s -> vsd dp s = vs -> 0 <= dp -> d = dp + 1 /\ dp + 1 <= L /\ inv s' /\ vsd (dp + 1) s' = vs ++ [z] /\ vsd dp s' = vs /\ seen s' = seen s.
Proof.
  intros H HI HV H0. apply bindEnv_inv in H as (_ & -> & FB & V & LT & E1 & E2 & E3). destruct (FB []) as (_ & F).
  split; auto. split. { destruct HI as (<- & _). lia. } split. { eapply inv_same; eauto. } split. { unfold vsd in *. now rewrite V, HV. } split; auto.
  destruct F as (F & _). unfold vsd in *. congruence.
Qed.
Lemma gen_let sf na args b : 0 <= na -> forall sz dp C s O s' vs, complet cx sf na sz dp args b C s = Ret (O, s') -> 0 <= snd sf <= sz -> 0 <= dp <= L -> vsd dp s = vs -> inv s -> cov O -> incl (seen s') S ->
  cmp_let sf na sz vs args b C O /\ inv s' /\ vsd dp s' = vs.
Proof.
  intros Hna. induction args as [|e args IHa]; intros sz dp C s O s' vs H Hsf Hdp HV HI HC HN; cbn [complet] in H.
  { destruct (IH _ _ _ _ _ _ _ _ _ H Hsf Hdp HV HI HC HN) as (A & B & D). split; auto. now constructor. }
  mb H. mb H. destruct (bind_ok _ _ _ _ _ _ E HI HV ltac:(lia)) as (-> & LE & I1 & V1 & V1' & _).
  pose proof (FR _ _ _ _ _ _ _ _ H) as F. bk F. apply cov_cons in CV.
  destruct (IHa _ _ _ _ _ _ _ E0 ltac:(lia) ltac:(lia) V1 I1 CV IN) as (A & B & D).
  assert (D' : vsd dp st0 = vs). { rewrite <- V1'. apply vsd_le with (dp' := dp + 1); [congruence | lia]. }
  destruct (IH _ _ _ _ _ _ _ _ _ H Hsf Hdp D' B HC HN) as (A2 & B2 & D2). split; auto. econstructor; eauto.
Qed.
Lemma gen_args sf na sz dp vs args b : 0 <= snd sf <= sz -> 0 <= dp <= L -> forall i C s O s', comparg cx sf na sz dp i args b C s = Ret (O, s') -> vsd dp s = vs -> inv s -> cov O -> incl (seen s') S ->
  cmp_args sf na sz vs i args b C O /\ inv s' /\ vsd dp s' = vs.
Proof.
  intros Hsf Hdp. induction args as [|e args IHa]; intros i C s O s' H HV HI HC HN; cbn [comparg] in H.
  { destruct (IH _ _ _ _ _ _ _ _ _ H Hsf Hdp HV HI HC HN) as (A & B & D). split; auto. now constructor. }
  destruct e; try discriminate. destruct p; try discriminate. mb H.
  pose proof (FR _ _ _ _ _ _ _ _ H) as F. bk F. do 3 apply cov_cons in CV.
  destruct (IHa _ _ _ _ _ E HV HI CV IN) as (A & B & D).
  destruct (IH _ _ _ _ _ _ _ _ _ H Hsf Hdp D B HC HN) as (A2 & B2 & D2). split; auto. econstructor; eauto.
Qed.
Lemma gen_init sf na l args b : 0 <= na -> forall sz dp C s O s' vs, initarg cx sf na sz dp l args b C s = Ret (O, s') -> 0 <= snd sf <= sz -> 0 <= dp <= L -> vsd dp s = vs -> inv s -> cov O -> incl (seen s') S ->
  cmp_init sf na sz vs l args b C O /\ inv s' /\ vsd dp s' = vs.
Proof.
  intros Hna. induction l as [|e l IHl]; intros sz dp C s O s' vs H Hsf Hdp HV HI HC HN; cbn [initarg] in H.
  { destruct (gen_args _ _ _ _ _ _ _ Hsf Hdp _ _ _ _ _ H HV HI HC HN) as (A & B & D). split; auto. now constructor. }
  destruct e; try discriminate. destruct p; try discriminate. mb H. mb H. mret H.
  destruct (bind_ok _ _ _ _ _ _ E HI HV ltac:(lia)) as (-> & LE & I1 & V1 & V1' & _). do 2 apply cov_cons in HC.
  destruct (IHl _ _ _ _ _ _ _ E0 ltac:(lia) ltac:(lia) V1 I1 HC HN) as (A & B & D). split; [now constructor|]. split; auto.
  rewrite <- V1'. apply vsd_le with (dp' := dp + 1); [congruence | lia].
Qed.
End Lists.

Lemma var_sub n dp s vs i : va_sub n (va s) = Some i -> vsd dp s = vs -> 0 <= dp -> 0 <= n /\ (n < zlen vs -> nth_error vs (Z.to_nat n) = Some i).
Proof.
  unfold va_sub. destruct (n <? 0) eqn:E; [discriminate|]. intros H <- H0. split; [lia|]. unfold vsd, zlen. rewrite firstn_length. intros HL.
  rewrite <- H. clear H. assert (HK : (Z.to_nat n < Z.to_nat dp)%nat) by lia. revert HK. generalize (Z.to_nat n) (Z.to_nat dp) (va s). clear.
  induction n as [|n IH]; intros [|d] [|x l] H; try lia; cbn; auto. apply IH. lia.
Qed.
Lemma set_nth_same {A} (l : list A) k x y : nth_error l k = Some y -> nth_error (set_nth l k x) k = Some x.
Proof. revert k. induction l as [|z l IH]; intros [|k] H; cbn in *; try discriminate; auto. Qed.
Lemma set_nth_other {A} (l : list A) k k' x : k' <> k -> nth_error (set_nth l k x) k' = nth_error l k'.
Proof. revert k k'. induction l as [|z l IH]; intros [|k] [|k'] H; cbn; auto; try congruence. Qed.
Lemma contlike_same C C' : contlike C C' -> cov C -> cov C' -> same P K C C'.
Proof.
  intros [-> | [(n & A & B) | [(A & B & l & G & G') | (D & D' & -> & ->)]]] H H'.
  - apply same_refl.
  - eapply same_ret; eauto.
  - assert (X : forall C, cov C -> goesb C = Some l -> goes P K C l).
    { clear. intros C H G. destruct C as [|i C]; [discriminate|]. destruct i; try discriminate; injection G as ->; constructor. now apply cov_lab. }
    eapply same_goes; eauto.
  - apply same_raise.
Qed.

Theorem gen_compexp : forall n, genC (compexp n fv).
Proof.
  induction n as [|n IH]; intros sf sz dp e C s O s' vs H Hsf Hdp HV HI HC HN; [discriminate|].
  pose proof (fr_compexp fv n) as FR.
  destruct e as [k | c | b args | b | args b | args b | q es | a cl | size a cl | | b h | b h | c t f | a b | c b | a b | a b | | k | k e].
  - (* variable *)
    cbn [compexp] in H. mb H. mret H. unfold findEnv in E. destruct (k <? 0) eqn:EK.
    + destruct (fv_index k 0 fv) eqn:EF; [|discriminate]. injection E as <- <-. split; [apply c_env; auto; lia|]. split; assumption.
    + destruct (va_sub k (va s)) as [i|] eqn:EV; [|discriminate]. destruct (i <? 0); [discriminate|]. injection E as <- <-.
      destruct (var_sub _ _ _ _ _ EV HV ltac:(lia)) as (V0 & V1). split; [apply c_var; auto|]. split; assumption.
  - (* constant *)
    cbn [compexp] in H. mret H. split; [|split; assumption].
    destruct C as [|[] C]; first [apply c_const | apply c_const_drop; reflexivity].
  - (* application *)
    cbn [compexp] in H. change (Z.of_nat (length args)) with (zlen args) in H. assert (0 <= zlen args) by (unfold zlen; lia).
    destruct (isReturn C) eqn:ER; [|destruct (zlen args <? 5) eqn:E5].
    + mb H. unfold compExpList in H. pose proof (fr_rl _ FR _ _ _ _ _ _ _ _ H) as F. bk F. apply cov_cons in CV.
      destruct (IH _ _ _ _ _ _ _ _ _ E ltac:(lia) Hdp HV HI CV IN) as (A & B & D).
      destruct (gen_rl _ FR IH _ _ _ _ _ _ _ _ _ H Hsf Hdp D B HC HN) as (A' & B' & D'). split; auto. eapply c_appterm; eauto.
    + mb H. unfold compExpList in H. pose proof (fr_rl _ FR _ _ _ _ _ _ _ _ H) as F. bk F. apply cov_cons in CV.
      destruct (IH _ _ _ _ _ _ _ _ _ E ltac:(lia) Hdp HV HI CV IN) as (A & B & D).
      destruct (gen_rl _ FR IH _ _ _ _ _ _ _ _ _ H Hsf Hdp D B HC HN) as (A' & B' & D'). split; auto. eapply c_apply; eauto. lia.
    + mb H. mb H. mb H. mret H. unfold compExpList in E1. apply cov_cons in HC.
      pose proof (fr_rl _ FR _ _ _ _ _ _ _ _ E1) as F1. bk F1. apply cov_cons in CV. pose proof (FR _ _ _ _ _ _ _ _ E0) as F0. bk F0. apply cov_cons in CV0.
      destruct (label_ok _ _ _ _ _ E HI CV0) as (LB & I2 & _ & V2). unfold vsd in HV. rewrite <- V2 in HV.
      destruct (IH _ _ _ _ _ _ _ _ _ E0 ltac:(lia) Hdp HV I2 CV IN) as (A & B & D).
      destruct (gen_rl _ FR IH _ _ _ _ _ _ _ _ _ E1 ltac:(lia) Hdp D B HC HN) as (A' & B' & D'). split; auto. eapply c_apply5; eauto. lia.
  - discriminate.
  - (* let *)
    cbn [compexp] in H.
    assert (A : complet (compexp n fv) sf (Z.of_nat (length args)) sz dp args b C s = Ret (O, s') -> cmp sf sz vs (Llet args b) C O /\ inv s' /\ vsd dp s' = vs).
    { intros H'. destruct (gen_let _ FR IH _ _ _ _ (Nat2Z.is_nonneg _) _ _ _ _ _ _ _ H' Hsf Hdp HV HI HC HN) as (A & B & D). split; auto. now apply c_let. }
    destruct args as [|a [|]]; auto. destruct b; auto.
    destruct (IH _ _ _ _ _ _ _ _ _ H Hsf Hdp HV HI HC HN) as (A' & B & D). split; auto. now apply c_let_unspec.
  - (* letrec *)
    cbn [compexp] in H.
    assert (A : length args <> 1%nat -> initarg (compexp n fv) sf (Z.of_nat (length args)) sz dp args args b C s = Ret (O, s') -> cmp sf sz vs (Lletrec args b) C O /\ inv s' /\ vsd dp s' = vs).
    { intros N1 H'. destruct (gen_init _ FR IH _ _ _ _ _ (Nat2Z.is_nonneg _) _ _ _ _ _ _ _ H' Hsf Hdp HV HI HC HN) as (A & B & D). split; auto. now apply c_letrec. }
    destruct args as [|a [|a2 args]]; [apply A; auto; discriminate| |].
    2:{ apply A; [discriminate|]. destruct a; auto; destruct p; auto. }
    clear A. destruct a; try discriminate H. destruct p; try discriminate H.
    mb H. apply bind_inv in H as (cb & st0 & E0 & H). destruct (bind_ok _ _ _ _ _ _ E HI HV ltac:(lia)) as (-> & LE & I1 & V1 & V1' & _).
    pose proof (vsd_len _ _ HI Hdp) as LV. rewrite HV in LV.
    assert (GO : cov cb -> incl (seen st0) S -> cmp sf (sz + 1) (vs ++ [sz + 1]) b (addPop 1 C) cb /\ inv st0 /\ vsd dp st0 = vs).
    { intros CA IA. destruct (IH _ _ _ _ _ _ _ _ _ E0 ltac:(lia) ltac:(lia) V1 I1 CA IA) as (A & B & D). split; auto. split; auto.
      rewrite <- V1'. apply vsd_le with (dp' := dp + 1); [congruence | lia]. }
    destruct es as [|e es].
    { mret H. do 2 apply cov_cons in HC. destruct (GO HC HN) as (A & B & D). split; auto. now apply c_letrec_nil. }
    destruct e; try discriminate. destruct (n0 =? dp) eqn:EN; unfold compExpList in H.
    + pose proof (fr_rl _ FR _ _ _ _ _ _ _ _ H) as F. bk F. do 2 apply cov_cons in CV. destruct (GO CV IN) as (A & B & D).
      destruct (gen_rl _ FR IH _ _ _ _ _ _ _ _ _ H Hsf Hdp D B HC HN) as (A' & B' & D'). split; auto.
      replace n0 with (zlen vs) by lia. eapply c_letrec_rec; eauto.
    + pose proof (fr_rl _ FR _ _ _ _ _ _ _ _ H) as F. bk F. do 2 apply cov_cons in CV. destruct (GO CV IN) as (A & B & D).
      destruct (gen_rl _ FR IH _ _ _ _ _ _ _ _ _ H Hsf Hdp D B HC HN) as (A' & B' & D'). split; auto.
      eapply c_letrec_one; eauto. lia.
  - (* primitive *)
    apply prim_inv in H as [-> _ X | e C1 H _ X | C1 H _ X | C1 H _ X].
    + split; auto.
    + destruct (IH _ _ _ _ _ _ _ _ _ H Hsf Hdp HV HI HC HN) as (A & B & D). auto.
    + destruct (gen_lr _ FR IH _ _ _ _ _ _ _ _ _ H Hsf Hdp HV HI HC HN) as (A & B & D). auto.
    + destruct (gen_rl _ FR IH _ _ _ _ _ _ _ _ _ H Hsf Hdp HV HI HC HN) as (A & B & D). auto.
  - (* case *)
    cbn [compexp] in H. mb H. pose proof (FR _ _ _ _ _ _ _ _ H) as F. bk F.
    destruct cl as [|(c & e) cl]. { unfold compTests in E. mb E. destruct (negb (sz =? snd sf)); discriminate. }
    destruct (int_like c) eqn:EI.
    + mb E. apply lift_inv in E0 as (EL & ->). destruct (int_clauses ((c, e) :: cl)) as [l| | |] eqn:EIC; try discriminate. cbn in EL.
      destruct (gen_decision _ FR IH _ _ _ _ _ _ _ _ _ E Hsf Hdp HV HI CV IN) as (A & B & D).
      destruct (IH _ _ _ _ _ _ _ _ _ H Hsf Hdp D B HC HN) as (A2 & B2 & D2). split; auto. eapply c_case_int; eauto. discriminate.
    + unfold compTests in E. mb E. destruct (fr_branch _ _ _ _ _ dp E0) as (FB & NL). destruct (negb (sz =? snd sf)) eqn:ES; [discriminate|].
      pose proof (fr_tests _ FR _ _ _ _ _ _ NL _ _ _ E) as F1. bk F1.
      destruct (branch_ok _ _ _ _ _ E0 HI CV0) as (MB & I0 & _ & _ & V0). unfold vsd in HV. rewrite <- V0 in HV.
      destruct (gen_tests _ FR IH _ _ _ _ _ _ _ Hsf Hdp NL _ _ _ E HV I0 CV IN) as (A & B & D).
      destruct (IH _ _ _ _ _ _ _ _ _ H Hsf Hdp D B HC HN) as (A2 & B2 & D2). split; auto. eapply c_case_tests; eauto. lia.
  - (* switch *)
    apply sw_inv in H as [e H X | t f H X | H].
    + destruct (IH _ _ _ _ _ _ _ _ _ H Hsf Hdp HV HI HC HN) as (A & B & D). auto.
    + destruct (gen_test2 _ FR IH _ _ _ _ _ _ _ _ _ _ _ H Hsf Hdp HV HI HC HN) as (A & B & D). auto.
    + mb H. pose proof (FR _ _ _ _ _ _ _ _ H) as F. bk F. apply cov_cons in CV.
      destruct (Z.of_nat (length cl) >=? size - 5).
      * destruct (gen_direct _ FR IH _ _ _ _ a _ _ _ _ _ _ E Hsf Hdp HV HI CV IN) as (A & B & D).
        destruct (IH _ _ _ _ _ _ _ _ _ H Hsf Hdp D B HC HN) as (A2 & B2 & D2). auto.
      * mb E. apply lift_inv in E0 as (EL & ->). destruct (gen_decision _ FR IH _ _ _ _ _ _ _ _ _ E Hsf Hdp HV HI CV IN) as (A & B & D).
        destruct (IH _ _ _ _ _ _ _ _ _ H Hsf Hdp D B HC HN) as (A2 & B2 & D2). split; auto. eapply c_switch_dec; eauto.
  - (* failure *)
    assert (addPop (sz - snd sf) (Kbranch (fst sf) :: discardDeadCode C) = O /\ s = s') as (<- & <-) by (injection H as <- <-; split; reflexivity).
    split; [apply c_sfail | split; assumption].
  - (* static handler *)
    cbn [compexp] in H.
    assert (A : (let* (branch1, C1) := makeBranch C in let* Ch := compexp n fv sf sz dp h C1 in let* (handle2, C2) := labelCode Ch in
                 compexp n fv (handle2, sz) sz dp b (branch1 :: discardDeadCode C2)) s = Ret (O, s') -> cmp sf sz vs (Lstatichandle b h) C O /\ inv s' /\ vsd dp s' = vs).
    { clear H. intros H. mb H. mb H. mb H. pose proof (FR _ _ _ _ _ _ _ _ H) as F. bk F. apply cov_cons, cov_dis in CV.
      pose proof (fr_label _ _ _ _ _ dp E1) as F1. bk F1. pose proof (FR _ _ _ _ _ _ _ _ E0) as F0. bk F0.
      destruct (branch_ok _ _ _ _ _ E HI CV1) as (MB & I0 & _ & _ & V0). unfold vsd in HV. rewrite <- V0 in HV.
      destruct (IH _ _ _ _ _ _ _ _ _ E0 Hsf Hdp HV I0 CV0 IN0) as (A & B & D).
      destruct (label_ok _ _ _ _ _ E1 B CV) as (LB & I2 & _ & V2). unfold vsd in D. rewrite <- V2 in D.
      destruct (IH _ _ _ _ _ _ _ _ _ H ltac:(cbn [snd]; lia) Hdp D I2 HC HN) as (A2 & B2 & D2). split; auto. eapply c_shandle; eauto. }
    destruct h; auto. destruct (IH _ _ _ _ _ _ _ _ _ H Hsf Hdp HV HI HC HN) as (A2 & B2 & D2). split; auto. now apply c_shandle_fail.
  - (* handler *)
    cbn [compexp] in H. mb H. mb H. mb H. mb H. mb H. mret H. apply cov_cons in HC.
    pose proof (FR _ _ _ _ _ _ _ _ E3) as F3. bk F3. do 2 apply cov_cons in CV. pose proof (cov_lab _ _ CV) as TG. do 2 apply cov_cons in CV.
    pose proof (FR _ _ _ _ _ _ _ _ E2) as F2. bk F2. apply (cov_eq _ _ (eq_sym (lsufs_addPop _ _))) in CV0.
    destruct (branch_ok _ _ _ _ _ E HI CV0) as (MB & I0 & _ & _ & V0). unfold vsd in HV. rewrite <- V0 in HV.
    apply new_label_inv in E0 as (-> & _ & FL & W1 & W2 & W3 & _). rewrite <- W1 in HV.
    assert (I1 : inv st0) by (eapply inv_same; [apply (FL 0) | auto | auto]).
    destruct (bind_ok _ _ _ _ _ _ E1 I1 HV ltac:(lia)) as (-> & LE & I2 & V1 & V1' & _).
    destruct (IH _ _ _ _ _ _ _ _ _ E2 ltac:(lia) ltac:(lia) V1 I2 CV IN) as (A & B & D).
    assert (D' : vsd dp st2 = vs). { rewrite <- V1'. apply vsd_le with (dp' := dp + 1); [congruence | lia]. }
    destruct (IH _ _ _ _ _ _ _ _ _ E3 ltac:(lia) Hdp D' B HC HN) as (A2 & B2 & D2). split; auto. eapply c_handle; eauto.
  - (* if *)
    destruct (gen_test2 _ FR IH _ _ _ _ _ _ _ _ _ _ _ H Hsf Hdp HV HI HC HN) as (A & B & D). split; auto. now apply c_if.
  - (* sequence *)
    cbn [compexp] in H. mb H. pose proof (FR _ _ _ _ _ _ _ _ H) as F. bk F.
    destruct (IH _ _ _ _ _ _ _ _ _ E Hsf Hdp HV HI CV IN) as (A & B & D).
    destruct (IH _ _ _ _ _ _ _ _ _ H Hsf Hdp D B HC HN) as (A2 & B2 & D2). split; auto. eapply c_seq; eauto.
  - (* loop *)
    cbn [compexp] in H. mb H. mb H. mb H. mb H. mret H. apply cov_cons in HC. pose proof (cov_lab _ _ HC) as TG. do 2 apply cov_cons in HC.
    pose proof (FR _ _ _ _ _ _ _ _ E2) as F2. bk F2. pose proof (fr_label _ _ _ _ _ dp E1) as F1. bk F1.
    apply new_label_inv in E as (-> & _ & FL & W1 & W2 & W3 & _). unfold vsd in HV. rewrite <- W1 in HV.
    assert (I1 : inv st) by (eapply inv_same; [apply (FL 0) | auto | auto]).
    destruct (IH _ _ _ _ _ _ _ _ _ E0 Hsf Hdp HV I1 CV0 IN0) as (A & B & D).
    destruct (label_ok _ _ _ _ _ E1 B CV) as (LB & I2 & _ & V2). unfold vsd in D. rewrite <- V2 in D.
    destruct (IH _ _ _ _ _ _ _ _ _ E2 Hsf Hdp D I2 HC HN) as (A2 & B2 & D2). split; auto. eapply c_while; eauto.
  - (* and *)
    cbn [compexp] in H.
    assert (A : (let* lbl := new_label in let* C1 := compexp n fv sf sz dp b (Klabel lbl :: C) in compexp n fv sf sz dp a (Kstrictbranchifnot lbl :: C1)) s = Ret (O, s') ->
      cmp sf sz vs (Landalso a b) C O /\ inv s' /\ vsd dp s' = vs).
    { clear H. intros H. mb H. mb H. pose proof (FR _ _ _ _ _ _ _ _ H) as F. bk F. apply cov_cons in CV. pose proof (FR _ _ _ _ _ _ _ _ E0) as F0. bk F0.
      pose proof (cov_lab _ _ CV0) as TG. apply new_label_inv in E as (-> & _ & FL & W1 & W2 & W3 & _). unfold vsd in HV. rewrite <- W1 in HV.
      assert (I1 : inv st) by (eapply inv_same; [apply (FL 0) | auto | auto]).
      destruct (IH _ _ _ _ _ _ _ _ _ E0 Hsf Hdp HV I1 CV IN) as (A & B & D).
      destruct (IH _ _ _ _ _ _ _ _ _ H Hsf Hdp D B HC HN) as (A2 & B2 & D2). split; auto. eapply c_and_new; eauto. }
    destruct C as [|i C]; auto. destruct i; auto; clear A.
    + mb H. pose proof (FR _ _ _ _ _ _ _ _ H) as F. bk F. apply cov_cons in CV. pose proof (FR _ _ _ _ _ _ _ _ E) as F0. bk F0. pose proof (cov_lab _ _ CV0) as TG.
      destruct (IH _ _ _ _ _ _ _ _ _ E Hsf Hdp HV HI CV IN) as (A & B & D).
      destruct (IH _ _ _ _ _ _ _ _ _ H Hsf Hdp D B HC HN) as (A2 & B2 & D2). split; auto.
      assert (G : goes P K (Klabel lbl :: C) lbl) by (now constructor).
      destruct C as [|i C]; [eapply c_and_goes; eauto|]. destruct i; try (eapply c_and_goes; eauto; reflexivity). eapply c_and_ret; eauto.
    + mb H. pose proof (FR _ _ _ _ _ _ _ _ H) as F. bk F. apply cov_cons in CV.
      destruct (IH _ _ _ _ _ _ _ _ _ E Hsf Hdp HV HI CV IN) as (A & B & D).
      destruct (IH _ _ _ _ _ _ _ _ _ H Hsf Hdp D B HC HN) as (A2 & B2 & D2). split; auto. eapply c_and_goes; eauto; constructor.
    + mb H. mb H. pose proof (FR _ _ _ _ _ _ _ _ H) as F. bk F. apply cov_cons in CV. pose proof (FR _ _ _ _ _ _ _ _ E0) as F0. bk F0. apply cov_cons in CV0.
      destruct (label_ok _ _ _ _ _ E HI CV0) as (LB & I2 & _ & V2). unfold vsd in HV. rewrite <- V2 in HV.
      destruct (IH _ _ _ _ _ _ _ _ _ E0 Hsf Hdp HV I2 CV IN) as (A & B & D).
      destruct (IH _ _ _ _ _ _ _ _ _ H Hsf Hdp D B HC HN) as (A2 & B2 & D2). split; auto. eapply c_and_if; eauto.
    + mb H. pose proof (FR _ _ _ _ _ _ _ _ H) as F. bk F. apply cov_cons in CV.
      destruct (IH _ _ _ _ _ _ _ _ _ E Hsf Hdp HV HI CV IN) as (A & B & D).
      destruct (IH _ _ _ _ _ _ _ _ _ H Hsf Hdp D B HC HN) as (A2 & B2 & D2). split; auto. eapply c_and_ifnot; eauto.
  - (* or *)
    cbn [compexp] in H.
    assert (A : (let* lbl := new_label in let* C1 := compexp n fv sf sz dp b (Klabel lbl :: C) in compexp n fv sf sz dp a (Kstrictbranchif lbl :: C1)) s = Ret (O, s') ->
      cmp sf sz vs (Lorelse a b) C O /\ inv s' /\ vsd dp s' = vs).
    { clear H. intros H. mb H. mb H. pose proof (FR _ _ _ _ _ _ _ _ H) as F. bk F. apply cov_cons in CV. pose proof (FR _ _ _ _ _ _ _ _ E0) as F0. bk F0.
      pose proof (cov_lab _ _ CV0) as TG. apply new_label_inv in E as (-> & _ & FL & W1 & W2 & W3 & _). unfold vsd in HV. rewrite <- W1 in HV.
      assert (I1 : inv st) by (eapply inv_same; [apply (FL 0) | auto | auto]).
      destruct (IH _ _ _ _ _ _ _ _ _ E0 Hsf Hdp HV I1 CV IN) as (A & B & D).
      destruct (IH _ _ _ _ _ _ _ _ _ H Hsf Hdp D B HC HN) as (A2 & B2 & D2). split; auto. eapply c_or_new; eauto. }
    destruct C as [|i C]; auto. destruct i; auto; clear A.
    + mb H. pose proof (FR _ _ _ _ _ _ _ _ H) as F. bk F. apply cov_cons in CV. pose proof (FR _ _ _ _ _ _ _ _ E) as F0. bk F0. pose proof (cov_lab _ _ CV0) as TG.
      destruct (IH _ _ _ _ _ _ _ _ _ E Hsf Hdp HV HI CV IN) as (A & B & D).
      destruct (IH _ _ _ _ _ _ _ _ _ H Hsf Hdp D B HC HN) as (A2 & B2 & D2). split; auto.
      assert (G : goes P K (Klabel lbl :: C) lbl) by (now constructor).
      destruct C as [|i C]; [eapply c_or_goes; eauto|]. destruct i; try (eapply c_or_goes; eauto; reflexivity). eapply c_or_ret; eauto.
    + mb H. pose proof (FR _ _ _ _ _ _ _ _ H) as F. bk F. apply cov_cons in CV.
      destruct (IH _ _ _ _ _ _ _ _ _ E Hsf Hdp HV HI CV IN) as (A & B & D).
      destruct (IH _ _ _ _ _ _ _ _ _ H Hsf Hdp D B HC HN) as (A2 & B2 & D2). split; auto. eapply c_or_goes; eauto; constructor.
    + mb H. pose proof (FR _ _ _ _ _ _ _ _ H) as F. bk F. apply cov_cons in CV.
      destruct (IH _ _ _ _ _ _ _ _ _ E Hsf Hdp HV HI CV IN) as (A & B & D).
      destruct (IH _ _ _ _ _ _ _ _ _ H Hsf Hdp D B HC HN) as (A2 & B2 & D2). split; auto. eapply c_or_if; eauto.
    + mb H. mb H. pose proof (FR _ _ _ _ _ _ _ _ H) as F. bk F. apply cov_cons in CV. pose proof (FR _ _ _ _ _ _ _ _ E0) as F0. bk F0. apply cov_cons in CV0.
      destruct (label_ok _ _ _ _ _ E HI CV0) as (LB & I2 & _ & V2). unfold vsd in HV. rewrite <- V2 in HV.
      destruct (IH _ _ _ _ _ _ _ _ _ E0 Hsf Hdp HV I2 CV IN) as (A & B & D).
      destruct (IH _ _ _ _ _ _ _ _ _ H Hsf Hdp D B HC HN) as (A2 & B2 & D2). split; auto. eapply c_or_ifnot; eauto.
  - cbn [compexp] in H. mret H. split; [apply c_unspec | split; assumption].
  - (* shared node *)
    cbn [compexp] in H. mb H. apply note_inv in E as (FN & SN & VN & HN1 & TN). mb H. apply get_sh_inv in E as (-> & GS). rename l into c, z into l.
    rewrite HN1 in GS. destruct HI as (IL & IU & IS). destruct (IS _ _ _ GS) as (SC & SE).
    assert (I1 : inv st). { eapply inv_same with (s := s) (dp := dp); [apply (FN dp []) | auto | split; [|split]; auto]. }
    assert (V1 : vsd dp st = vs) by (unfold vsd in *; now rewrite VN).
    set (v := mkV k (length (still s)) sf sz (firstn (Z.to_nat dp) (va s)) C) in *.
    destruct (l <? 0) eqn:EL.
    + mb H. mb H. mb H. mret H. apply set_lbl_inv in E1 as (FL & W1 & W2 & W3 & e0 & lx & W4 & W5). rewrite W3 in HN.
      pose proof (fr_label _ _ _ _ _ dp E0) as F0. bk F0. pose proof (FR _ _ _ _ _ _ _ _ E) as F. bk F.
      destruct (IH _ _ _ _ _ _ _ _ _ E Hsf Hdp V1 I1 CV IN) as (A & B & D).
      destruct (label_ok _ _ _ _ _ E0 B HC) as (LB & I2 & S2 & V2).
      split; [eapply c_shared; eauto|]. split. 2:{ unfold vsd in *. now rewrite W1, V2. }
      destruct I2 as (IL2 & IU2 & IS2). split; [congruence|]. split; [congruence|].
      assert (e0 = c). { destruct F0 as (_ & _ & _ & M0 & _), F as (_ & _ & _ & M1 & _). apply (f_equal (fun x => nth_error x k)) in M0, M1.
        rewrite !nth_error_map in M0, M1. rewrite W4, M1, HN1, GS in M0. cbn in M0. congruence. }
      subst e0. intros k' c' l' HK. rewrite W5 in HK. destruct (Nat.eq_dec k' k) as [-> | NE].
      * rewrite (set_nth_same _ _ _ _ W4) in HK. injection HK as <- <-. split; auto. intros _. exists v. split.
        { rewrite W3, S2. destruct F as (_ & _ & _ & _ & _ & nw & -> & _). apply in_or_app. right. rewrite SN. left. reflexivity. }
        split; [reflexivity|]. intros _. split; [exact CV0|]. cbn [v v_sf v_sz v_vs v_C]. eexists _, _. split; [|exact LB].
        unfold vsd in HV. rewrite HV. exact A.
      * rewrite set_nth_other in HK by auto. destruct (IS2 _ _ _ HK) as (X1 & X2). split; auto. intros H0. destruct (X2 H0) as (v0 & X3 & X4).
        exists v0. split; auto. now rewrite W3.
    + mret H. apply cov_cons, cov_dis in HC. split; [|split; assumption].
      destruct (SE ltac:(lia)) as (v0 & X1 & X2 & X3).
      assert (HI0 : In v0 S). { apply HN. rewrite SN. right. exact X1. }
      assert (HI1 : In v S). { apply HN. rewrite SN. left. reflexivity. }
      destruct (SOK v0 v HI0 HI1 X2) as (Y1 & Y2 & Y3 & Y4 & Y5). cbn [v v_u v_sf v_sz v_vs v_C] in Y1, Y2, Y3, Y4, Y5. unfold vsd in HV. rewrite HV in Y4.
      destruct (X3 ltac:(congruence)) as (Z1 & Cc & C1 & Z2 & Z3). rewrite Y2, Y3, Y4 in Z2.
      eapply c_shared_again; eauto. now apply contlike_same.
  - (* assignment *)
    cbn [compexp] in H. mb H. unfold findStk in E. destruct (va_sub k (va s)) as [i|] eqn:EV; [|discriminate]. destruct (i <? 0); [discriminate|]. injection E as <- <-.
    destruct (var_sub _ _ _ _ _ EV HV ltac:(lia)) as (V0 & V1).
    destruct (IH _ _ _ _ _ _ _ _ _ H Hsf Hdp HV HI HC HN) as (A & B & D). split; auto. eapply c_assign; eauto. intros (_ & X). now apply V1.
Qed.
End Gen.
