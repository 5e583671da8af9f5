(** The code generator stays within the relation [cmp]. *)
From Verif Require Import Base Opcodes Back_Model Back_Spec Back_Rel Back_Frame.

Definition cxt := Z * Z -> Z -> Z -> lam -> list instr -> M (list instr).

(** ** What compexp does for a primitive *)
Inductive pcase (cx : cxt) (fv : list Z) (sf : Z * Z) (sz dp : Z) (q : lprim) (es : list lam) (C : list instr) (s : bst) (O : list instr) (s' : bst) : Prop :=
| pc_done : s' = s -> lsufs O = lsufs C -> (forall P K shc nf vs, cmp P K fv shc nf sf sz vs (Lprim q es) C O) -> pcase cx fv sf sz dp q es C s O s'
| pc_one e C1 : cx sf sz dp e C1 s = Ret (O, s') -> lsufs C1 = lsufs C ->
    (forall P K shc nf vs, cmp P K fv shc nf sf sz vs e C1 O -> cmp P K fv shc nf sf sz vs (Lprim q es) C O) -> pcase cx fv sf sz dp q es C s O s'
| pc_lr C1 : compExpListLR cx sf sz dp es C1 s = Ret (O, s') -> lsufs C1 = lsufs C ->
    (forall P K shc nf vs, cmp_lr P K fv shc nf sf sz vs es C1 O -> cmp P K fv shc nf sf sz vs (Lprim q es) C O) -> pcase cx fv sf sz dp q es C s O s'
| pc_rl C1 : compExpList cx sf sz dp es C1 s = Ret (O, s') -> lsufs C1 = lsufs C ->
    (forall P K shc nf vs, cmp_rl P K fv shc nf sf sz vs es C1 O -> cmp P K fv shc nf sf sz vs (Lprim q es) C O) -> pcase cx fv sf sz dp q es C s O s'.

Lemma prim_not n fv sf sz dp op e1 C s O s' :
  (if op =? BOOLNOT then
     match C with
     | Kbranchif lbl :: C' => compexp n fv sf sz dp e1 (Kbranchifnot lbl :: C')
     | Kbranchifnot lbl :: C' => compexp n fv sf sz dp e1 (Kbranchif lbl :: C')
     | _ => compexp n fv sf sz dp e1 (Kprim Pnot :: C)
     end
   else compExpListLR (compexp n fv) sf sz dp [e1] (Kprim (Psimple op) :: C)) s = Ret (O, s') ->
  pcase (compexp n fv) fv sf sz dp (Pp (Psimple op)) [e1] C s O s'.
Proof.
  destruct (op =? BOOLNOT) eqn:E.
  2:{ intros H. eapply pc_lr; [exact H | reflexivity|]. intros. apply c_prim; [discriminate | assumption]. }
  apply Z.eqb_eq in E as ->.
  assert (A : compexp n fv sf sz dp e1 (Kprim Pnot :: C) s = Ret (O, s') -> pcase (compexp n fv) fv sf sz dp (Pp (Psimple BOOLNOT)) [e1] C s O s').
  { intros H. eapply pc_one; [exact H | reflexivity |]. intros. apply c_prim; [discriminate|]. now apply lr_one. }
  destruct C as [|i C]; auto. destruct i; auto; intros H; (eapply pc_one; [exact H | reflexivity |]); intros.
  - now apply (c_not_if P K fv shc nf sf sz vs e1). - now apply (c_not_ifnot P K fv shc nf sf sz vs e1).
Qed.
Lemma prim_inv n fv sf sz dp q es C s O s' : compexp (S n) fv sf sz dp (Lprim q es) C s = Ret (O, s') ->
  pcase (compexp n fv) fv sf sz dp q es C s O s'.
Proof.
  cbn [compexp]. destruct q as [u | u | t sp | i | i | | lbl csz | q].
  - destruct es; [|discriminate]. intros [= <- <-]. apply pc_done; auto. intros. apply c_getg.
  - destruct es as [|e [|]]; try discriminate. intros H. eapply pc_one; [exact H | reflexivity|]. intros. now apply c_setg.
  - intros H. eapply pc_lr; [exact H | reflexivity|]. intros. now apply c_makeblock.
  - intros H. eapply pc_lr; [exact H | reflexivity|]. intros. now apply c_field.
  - intros H. eapply pc_lr; [exact H | reflexivity|]. intros. now apply c_setfield.
  - intros H. eapply pc_lr; [exact H | apply lsufs_discard|]. intros. now apply c_raise.
  - intros H. eapply pc_rl; [exact H | reflexivity|]. intros. now apply c_clos.
  - assert (GEN : q <> Pidentity -> compExpListLR (compexp n fv) sf sz dp es (Kprim q :: C) s = Ret (O, s') -> pcase (compexp n fv) fv sf sz dp (Pp q) es C s O s').
    { intros N H. eapply pc_lr; [exact H | reflexivity|]. intros. now apply c_prim. }
    destruct q as [ | k | t | nm k | tg | op | ]; try (apply GEN; discriminate).
    + intros H. eapply pc_lr; [exact H | reflexivity|]. intros. now apply c_ident.
    + assert (G2 : compExpListLR (compexp n fv) sf sz dp es (Kprim (Ptest t) :: C) s = Ret (O, s') -> pcase (compexp n fv) fv sf sz dp (Pp (Ptest t)) es C s O s') by (apply GEN; discriminate).
      destruct C as [|i C]; auto. destruct i; auto; intros H.
      * eapply pc_lr; [exact H | reflexivity|]. intros. now apply c_test_if.
      * mb H. apply lift_inv in E as (E & ->). eapply pc_lr; [exact H | reflexivity|]. intros. eapply c_test_ifnot; eauto.
    + assert (G2 : compExpListLR (compexp n fv) sf sz dp es (Kprim (Psimple op) :: C) s = Ret (O, s') -> pcase (compexp n fv) fv sf sz dp (Pp (Psimple op)) es C s O s') by (apply GEN; discriminate).
      destruct es as [|e1 [|e2 [|e3 es]]].
      * exact G2.
      * apply prim_not.
      * destruct e2; try exact G2. destruct c; try exact G2. destruct i as [|i|i]; try exact G2. destruct i; try exact G2.
        destruct (op =? SMLADDINT) eqn:E1; [|destruct (op =? SMLSUBINT) eqn:E2]; intros H.
        -- apply Z.eqb_eq in E1 as ->. eapply pc_one; [exact H | reflexivity|]. intros. now apply c_succ.
        -- apply Z.eqb_eq in E2 as ->. eapply pc_one; [exact H | reflexivity|]. intros. now apply c_pred.
        -- now apply G2.
      * destruct e2; try exact G2. destruct c; try exact G2. destruct i as [|i|i]; try exact G2. destruct i; try exact G2.
Qed.

(** ** and for a switch *)
Inductive scase (cx : cxt) (fv : list Z) (sf : Z * Z) (sz dp : Z) (size : Z) (a : lam) (cl : list (Z * lam)) (C : list instr) (s : bst) (O : list instr) (s' : bst) : Prop :=
| sc_one e : cx sf sz dp e C s = Ret (O, s') ->
    (forall P K shc nf vs, cmp P K fv shc nf sf sz vs e C O -> cmp P K fv shc nf sf sz vs (Lswitch size a cl) C O) -> scase cx fv sf sz dp size a cl C s O s'
| sc_test t f : compTest2 cx sf sz dp a t f C s = Ret (O, s') ->
    (forall P K shc nf vs, cmp_test2 P K fv shc nf sf sz vs a t f C O -> cmp P K fv shc nf sf sz vs (Lswitch size a cl) C O) -> scase cx fv sf sz dp size a cl C s O s'
| sc_gen :
    (let* C1 := (if Z.of_nat (length cl) >=? size - 5 then compDirectSwitch cx sf sz dp size cl C
                 else let* t := lift (compileNBranch cl) in compDecision cx sf sz dp t C) in
     cx sf sz dp a (Kprim Ptag_of :: C1)) s = Ret (O, s') -> scase cx fv sf sz dp size a cl C s O s'.
Lemma sw_inv n fv sf sz dp size a cl C s O s' : compexp (S n) fv sf sz dp (Lswitch size a cl) C s = Ret (O, s') ->
  scase (compexp n fv) fv sf sz dp size a cl C s O s'.
Proof.
  cbn [compexp].
  repeat match goal with
  | |- match ?x with _ => _ end _ = _ -> _ => is_var x; destruct x
  | |- (let '(_, _) := ?x in _) _ = _ -> _ => is_var x; destruct x
  end; try (apply sc_gen; fail); intros H;
  first [ eapply sc_one; [exact H|]; intros; apply c_switch_1; assumption
        | eapply sc_test; [exact H|]; intros; first [apply c_switch_0; assumption | apply c_switch_01; assumption | apply c_switch_2; assumption | apply c_switch_2'; assumption]
        | apply sc_gen; exact H ].
Qed.

(** ** The frame *)
Lemma fr_eqC dp C C' s O s' : lsufs C' = lsufs C -> fr dp C' s O s' -> fr dp C s O s'.
Proof. intros E (A & B). split; auto. eapply ce_eq; eauto. Qed.
Theorem fr_compexp fv : forall n, frC (compexp n fv).
Proof.
  induction n as [|n IH]; intros sf sz dp e C s O s' H; [discriminate|].
  assert (NB : forall C s b C1 s1, makeBranch C s = Ret (b, C1, s1) -> nolab b) by (intros ? ? ? ? ? HB; exact (proj2 (fr_branch _ _ _ _ _ 0 HB))).
  destruct e as [k | c | b args | b | args b | args b | q es | a cl | size a cl | | b h | b h | c t f | a b | c b | a b | a b | | k | k e].
  - cbn [compexp] in H. mb H. mret H. apply findEnv_inv in E as (-> & NL). apply fr_cons; auto. apply fr_refl.
  - cbn [compexp] in H. mret H. destruct C as [|[] C]; first [apply fr_refl | apply fr_cons; [exact I | apply fr_refl]].
  - cbn [compexp] in H. destruct (isReturn C); [|destruct (Z.of_nat (length args) <? 5)].
    + mb H. unfold compExpList in H. apply (fr_rl _ IH) in H. apply IH in E. eapply fr_trans; [|exact H]. apply fr_cons; [exact I|].
      eapply fr_eqC; [|exact E]. apply lsufs_discard.
    + mb H. unfold compExpList in H. apply (fr_rl _ IH) in H. apply IH in E. eapply fr_trans; [|exact H]. apply fr_cons; [exact I|].
      eapply fr_eqC; [|exact E]. reflexivity.
    + mb H. mb H. mb H. mret H. unfold compExpList in E1. apply (fr_rl _ IH) in E1. apply IH in E0. apply (fr_label _ _ _ _ _ dp) in E.
      apply fr_cons; [exact I|]. eapply fr_trans; [exact E|]. eapply fr_trans; [|exact E1]. apply fr_cons; [exact I|]. eapply fr_eqC; [|exact E0]. reflexivity.
  - discriminate.
  - cbn [compexp] in H.
    assert (A : complet (compexp n fv) sf (Z.of_nat (length args)) sz dp args b C s = Ret (O, s') -> fr dp C s O s') by apply (fr_let _ IH).
    destruct args as [|a [|]]; auto. destruct b; auto. eapply IH; eauto.
  - cbn [compexp] in H.
    assert (A : initarg (compexp n fv) sf (Z.of_nat (length args)) sz dp args args b C s = Ret (O, s') -> fr dp C s O s') by apply (fr_init _ IH).
    destruct args as [|a [|]]; auto; [|destruct a; auto; destruct p; auto]. destruct a; auto. destruct p; auto.
    mb H. apply bindEnv_inv in E as (N0 & -> & FB & _). mb H. apply IH in E. clear A.
    assert (F2 : fr dp C s (Kpush :: a) st0).
    { apply fr_cons; [exact I|]. eapply fr_step; [eapply fr_eqC; [|exact E]; apply lsufs_addPop | lia | apply FB]. }
    destruct es as [|e es]. { mret H. apply fr_cons; [exact I|]. exact F2. }
    destruct e; try discriminate. destruct (n0 =? dp); unfold compExpList in H; apply (fr_rl _ IH) in H; (eapply fr_trans; [exact F2|]; eapply fr_eqC; [|exact H]; reflexivity).
  - apply prim_inv in H as [-> L _ | e C1 H L _ | C1 H L _ | C1 H L _].
    + apply fr_eq with (O := C); auto. apply fr_refl.
    + eapply fr_eqC; [exact L|]. eapply IH; eauto.
    + eapply fr_eqC; [exact L|]. eapply (fr_lr _ IH); eauto.
    + eapply fr_eqC; [exact L|]. eapply (fr_rl _ IH); eauto.
  - cbn [compexp] in H. mb H. apply IH in H. eapply fr_trans; [|exact H]. clear H.
    assert (T : forall l, compTests (compexp n fv) sf sz dp l C s = Ret (a0, st) -> fr dp C s a0 st).
    { intros l H. unfold compTests in H. mb H. destruct (fr_branch _ _ _ _ _ dp E0) as (FB & NL). destruct (negb (sz =? snd sf)); [discriminate|].
      apply (fr_tests _ IH) in H; auto. eapply fr_trans; eauto. }
    destruct cl as [|(c & e) cl]; [eauto|]. destruct (int_like c); [|eauto]. mb E. apply lift_inv in E0 as (_ & ->). eapply (fr_decision _ IH); eauto.
  - apply sw_inv in H as [e H _ | t f H _ | H].
    + eapply IH; eauto.
    + eapply (fr_test2 _ IH); eauto.
    + mb H. apply IH in H. eapply fr_trans; [|exact H]. apply fr_cons; [exact I|]. clear H.
      destruct (Z.of_nat (length cl) >=? size - 5). { eapply (fr_direct _ IH); eauto. } mb E. apply lift_inv in E0 as (_ & ->). eapply (fr_decision _ IH); eauto.
  - cbn [compexp] in H. assert (addPop (sz - snd sf) (Kbranch (fst sf) :: discardDeadCode C) = O /\ s = s') as (<- & <-) by (injection H as <- <-; split; reflexivity). apply fr_addPop, fr_cons; [exact I|]. apply fr_discard, fr_refl.
  - cbn [compexp] in H.
    assert (A : (let* (branch1, C1) := makeBranch C in let* Ch := compexp n fv sf sz dp h C1 in let* (handle2, C2) := labelCode Ch in
                 compexp n fv (handle2, sz) sz dp b (branch1 :: discardDeadCode C2)) s = Ret (O, s') -> fr dp C s O s').
    { clear H. intros H. mb H. mb H. mb H. destruct (fr_branch _ _ _ _ _ dp E) as (FB & NL). apply IH in E0, H. apply (fr_label _ _ _ _ _ dp) in E1.
      eapply fr_trans; [exact FB|]. eapply fr_trans; [exact E0|]. eapply fr_trans; [exact E1|]. eapply fr_eqC; [|exact H]. rewrite lsufs_cons by auto. apply lsufs_discard. }
    destruct h; auto. eapply IH; eauto.
  - cbn [compexp] in H. mb H. mb H. mb H. apply bindEnv_inv in E1 as (N0 & -> & FB & _). mb H. mb H. mret H.
    destruct (fr_branch _ _ _ _ _ dp E) as (FR & NL). apply IH in E1, E2. apply fr_cons; [exact I|].
    eapply fr_trans; [exact FR|]. eapply fr_trans; [|eapply fr_eqC; [|exact E2]; reflexivity]. apply fr_cons; [exact I|]. apply fr_cons; [exact NL|].
    eapply fr_later; [exact E0|]. apply fr_cons; [exact I|]. eapply fr_step; [eapply fr_eqC; [|exact E1]; apply lsufs_addPop | lia | apply FB].
  - eapply (fr_test2 _ IH); eauto.
  - cbn [compexp] in H. mb H. apply IH in E, H. eapply fr_trans; eauto.
  - cbn [compexp] in H. mb H. mb H. mb H. mb H. mret H. apply IH in E0, E2. apply (fr_label _ _ _ _ _ dp) in E1.
    apply fr_cons; [exact I|]. eapply fr_later; [exact E|]. apply fr_cons; [exact I|].
    eapply fr_trans; [eapply fr_eqC; [|exact E0]; reflexivity|]. eapply fr_trans; [exact E1 | exact E2].
  - cbn [compexp] in H.
    assert (A : (let* lbl := new_label in let* C1 := compexp n fv sf sz dp b (Klabel lbl :: C) in compexp n fv sf sz dp a (Kstrictbranchifnot lbl :: C1)) s = Ret (O, s') -> fr dp C s O s').
    { clear H. intros H. mb H. mb H. apply IH in E0, H. eapply fr_trans; [apply (fr_new _ _ _ _ _ E)|]. eapply fr_trans; [exact E0|]. eapply fr_eqC; [|exact H]. reflexivity. }
    destruct C as [|i C]; auto. destruct i; auto; clear A; try (mb H; apply IH in E, H; eapply fr_trans; [exact E|]; eapply fr_eqC; [|exact H]; reflexivity).
    mb H. mb H. apply IH in E0, H. apply (fr_label _ _ _ _ _ dp) in E.
    eapply fr_trans; [eapply fr_eqC; [|exact E]; reflexivity|]. eapply fr_trans; [eapply fr_eqC; [|exact E0]; reflexivity|]. eapply fr_eqC; [|exact H]. reflexivity.
  - cbn [compexp] in H.
    assert (A : (let* lbl := new_label in let* C1 := compexp n fv sf sz dp b (Klabel lbl :: C) in compexp n fv sf sz dp a (Kstrictbranchif lbl :: C1)) s = Ret (O, s') -> fr dp C s O s').
    { clear H. intros H. mb H. mb H. apply IH in E0, H. eapply fr_trans; [apply (fr_new _ _ _ _ _ E)|]. eapply fr_trans; [exact E0|]. eapply fr_eqC; [|exact H]. reflexivity. }
    destruct C as [|i C]; auto. destruct i; auto; clear A; try (mb H; apply IH in E, H; eapply fr_trans; [exact E|]; eapply fr_eqC; [|exact H]; reflexivity).
    mb H. mb H. apply IH in E0, H. apply (fr_label _ _ _ _ _ dp) in E.
    eapply fr_trans; [eapply fr_eqC; [|exact E]; reflexivity|]. eapply fr_trans; [eapply fr_eqC; [|exact E0]; reflexivity|]. eapply fr_eqC; [|exact H]. reflexivity.
  - cbn [compexp] in H. mret H. apply fr_refl.
  - cbn [compexp] in H. mb H. apply note_inv in E as (FN & _). mb H. apply get_sh_inv in E as (-> & _).
    destruct (z <? 0). 2:{ mret H. apply fr_cons; [exact I|]. apply fr_discard, FN. }
    mb H. mb H. mb H. mret H. apply IH in E. apply (fr_label _ _ _ _ _ dp) in E0. apply set_lbl_inv in E1 as (FL & _).
    eapply fr_trans; [apply FN|]. eapply fr_trans; [exact E|]. eapply fr_trans; [exact E0 | apply FL].
  - cbn [compexp] in H. mb H. apply findStk_inv in E as (-> & NL). apply IH in H. eapply fr_eqC; [|exact H]. now apply lsufs_cons.
Qed.
