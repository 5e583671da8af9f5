(** The code for a term starts with an instruction that does not look at accu, unless the term is
    unspecified and the code is that of the continuation. *)
From Verif Require Import Base Opcodes Back_Model Back_Spec Back_Rel.
From Verif Require Import Back_Sim Back_Goal Back_Tree Back_Main Back_Lists.

Section Head.
Variable mp : prims.
Variable p : sprims.
Variable P : list instr.
Variable base : Z.
Variable F : Z -> option fundef.
Variable shc : nat -> option lam.
Variable nf : lam -> Prop.
Notation ar := (prim_arity mp).
Notation eval := (eval p ar F shc).
Notation J := (J mp P base).
Notation vrel := (vrel F).
Notation Inv := (Inv F mp p).
Notation goal := (goal mp P base F).
Notation land := (land mp P base F).
Notation cmp := (fun K fv => cmp P K fv shc nf).
Notation okC_mbr := (okC_mbr P).
Hypothesis CO : code_ok P F shc nf.

Definition nl (C : list instr) : bool :=
  rety C || match C with Kbranchif _ :: _ | Kbranchifnot _ :: _ => true | _ => false end.
Lemma goal_land K R x t e st vs w s h gm ls s0 C v : nl C = false -> goal K R x t e st vs w s h gm ls s0 C v ->
  land R x t e st vs w s h gm ls s0 (C ++ K) (fun _ => True).
Proof.
  unfold nl, Back_Goal.goal. intros H. apply orb_false_iff in H as (-> & H2).
  assert (G : forall c Q, land R x t e st vs w s h gm ls s0 c Q -> land R x t e st vs w s h gm ls s0 c (fun _ => True)).
  { intros c Q (st' & a & A1 & A2 & A3 & A4). exists st', a. auto. }
  destruct C as [|i C]; [apply G|]. destruct i; try discriminate; cbn [overwrites]; eauto.
Qed.
Lemma lab_nl K C l C1 : lab P K C l C1 -> nl C1 = true -> nl C = true.
Proof.
  intros H. inversion H; subst; auto. destruct C as [|[] C]; cbn; try discriminate; auto.
Qed.

Definition passes (K : list instr) (sz : Z) (vs : list Z) (C O : list instr) : Prop :=
  nl C = true /\ (forall R x t, okC R x t sz C -> okC R x t sz O) /\
  forall R x t e st w s h g gm ls s0 v, Inv w s h g gm -> 0 <= x -> zlen st = sz -> okC R x t sz C ->
    goal K R x t e st vs w s h gm ls s0 O v -> goal K R x t e st vs w s h gm ls s0 C v.
Lemma passes_trans K sz vs C C1 O : passes K sz vs C C1 -> passes K sz vs C1 O -> passes K sz vs C O.
Proof. intros (A1 & A2 & A3) (B1 & B2 & B3). split; auto. split; eauto 8. Qed.

Lemma rl_vars_nl K fv es : forall ns sf sz vs C O, as_vars es = Some ns -> cmp_rl P K fv shc nf sf sz vs es C O -> nl C = false -> nl O = false.
Proof.
  induction es as [|e r IHr]; intros ns sf sz vs C O HA HC HN; inversion HC as [| ? ? ? ? ? ? HC1 | ? ? ? ? ? ? C1 ? NE HC1 HC2]; subst; auto;
    cbn [as_vars] in HA; destruct e; try discriminate; cbn [as_var] in HA.
  - inversion HC1; reflexivity.
  - destruct (as_vars r); try discriminate. eapply IHr; eauto.
Qed.
Lemma decision_nl K fv sf sz vs t C O : cmp_decision P K fv shc nf sf sz vs t C O -> nl O = false.
Proof. intros H. inversion H; subst. match goal with H : cmp_dec _ _ _ _ _ _ _ _ _ _ _ _ |- _ => inversion H; reflexivity end. Qed.
Lemma tests_nl K fv sf sz vs br C1 cl O : cmp_tests P K fv shc nf sf sz vs br C1 cl O -> nl O = false.
Proof. intros H. inversion H; reflexivity. Qed.
Lemma simple_eval n : forall fv cl e s r s', simple e = true -> eval n fv cl e s = Some (r, s') -> s' = s /\ exists v, r = RV v.
Proof.
  induction n as [|n IH]; intros fv cl e s r s' HS HE; [discriminate|]. cbn [Back_Spec.eval] in HE.
  destruct e as [k | c | | | | | q es | | | | | | | | | | | | |]; try discriminate HS.
  - destruct (var fv cl (loc s) k); try discriminate. injection HE as <- <-. eauto.
  - injection HE as <- <-. eauto.
  - destruct q; try discriminate HS; destruct es as [|e [|e' es]]; try discriminate HS; cbn [ident_ok evals_lr] in HE.
    + cbn [bindL ev_lprim] in HE. destruct (slook (gl s) _); try discriminate. injection HE as <- <-. eauto.
    + destruct (eval n fv cl e s) as [(r1 & s1)|] eqn:E1; [|discriminate]. apply IH in E1 as (-> & v & ->); auto.
      cbn [bindL ev_lprim] in HE. destruct v; try discriminate. destruct (nth_error (sto s) l) as [[]|]; try discriminate.
      destruct (0 <=? _); try discriminate. destruct (nth_error vs _); try discriminate. injection HE as <- <-. eauto.
Qed.

Definition headE (n : nat) (e : lam) : Prop := forall fv cl s r s', eval n fv cl e s = Some (r, s') ->
  forall K sf sz vs C O, cmp K fv sf sz vs e C O -> nl O = true -> 0 <= sz -> r = RV SAny /\ s' = s /\ passes K sz vs C O.

Section Step.
Variable n : nat.
Hypothesis IH : forall e, headE n e.
Lemma head_rl fv cl K es s lr s' : evals_rl (eval n fv cl) es s = Some (lr, s') ->
  forall sf sz vs C O, cmp_rl P K fv shc nf sf sz vs es C O -> nl O = true -> 0 <= sz -> nl C = true.
Proof.
  revert s lr s'. induction es as [|e r IHr]; intros s lr s' HE sf sz vs C O HC HN Hs; inversion HC as [| ? ? ? ? ? ? HC1 | ? ? ? ? ? ? C1 ? NE HC1 HC2]; subst; auto.
  - cbn [evals_rl] in HE. destruct (eval n fv cl e s) as [(r1 & s1)|] eqn:E1; [|discriminate].
    destruct (IH e _ _ _ _ _ E1 _ _ _ _ _ _ HC1 HN Hs) as (_ & _ & H & _). auto.
  - cbn [evals_rl] in HE. destruct (evals_rl (eval n fv cl) r s) as [(lr2 & s2)|] eqn:E2; [|discriminate].
    specialize (IHr _ _ _ E2 _ _ _ _ _ HC2 HN Hs). discriminate.
Qed.
Lemma head_lr fv cl K es s lr s' : evals_lr (eval n fv cl) es s = Some (lr, s') ->
  forall sf sz vs C O, cmp_lr P K fv shc nf sf sz vs es C O -> nl O = true -> 0 <= sz -> nl C = true.
Proof.
  destruct es as [|e r]; intros HE sf sz vs C O HC HN Hs; inversion HC as [| ? ? ? ? ? ? HC1 | ? ? ? ? ? ? C1 ? NE HC2 HC1]; subst; auto;
  cbn [evals_lr] in HE; (destruct (eval n fv cl e s) as [(r1 & s1)|] eqn:E1; [|discriminate]);
    destruct (IH e _ _ _ _ _ E1 _ _ _ _ _ _ HC1 HN Hs) as (_ & _ & H & _); auto. discriminate.
Qed.
Lemma head_test2 fv cl K c s : forall sf sz vs t f C O, cmp_test2 P K fv shc nf sf sz vs c t f C O -> nl O = true -> 0 <= sz ->
  forall r s1, eval n fv cl c s = Some (r, s1) -> r = RV SAny.
Proof.
  intros sf sz vs t f C O HC HN Hs r s1 HE.
  inversion HC as [? ? ? ? ? ? ? ? HS HC1 HC2 | ? ? ? ? ? ? ? ? HS HC1 HC2 | ? ? ? ? ? ? ? ? ? ? ? ? ? ? HM HC1 HL HC2 HC3]; subst;
    [destruct (IH c _ _ _ _ _ HE _ _ _ _ _ _ HC2 HN Hs) as (-> & _) | destruct (IH c _ _ _ _ _ HE _ _ _ _ _ _ HC2 HN Hs) as (-> & _) | destruct (IH c _ _ _ _ _ HE _ _ _ _ _ _ HC3 HN Hs) as (-> & _)]; auto.
Qed.
End Step.

Lemma cut_id s : mkS (firstn (length (loc s)) (loc s)) (sto s) (gl s) = s.
Proof. rewrite firstn_all. now destruct s. Qed.
Lemma addPop_0 C : addPop 0 C = C.
Proof. now destruct C. Qed.

Ltac hb H := match type of H with context [bindV ?a _] => let r := fresh "r1" in let s := fresh "s1" in let E := fresh "E1" in destruct a as [(r & s)|] eqn:E; [|discriminate H]; cbn [bindV] in H end.
Theorem head_ok : forall n e, headE n e.
Proof.
  induction n as [|n IH]; intros e fv cl s r s' HE K sf sz vs C O HC HN Hs; [discriminate|].
  assert (ONE : forall e r1 s1 sf C1, eval n fv cl e s = Some (r1, s1) -> cmp K fv sf sz vs e C1 O ->
     r1 = RV SAny /\ s1 = s /\ passes K sz vs C1 O) by (intros; eapply IH; eauto).
  assert (NO : forall e r1 s1 sf C1, eval n fv cl e s = Some (r1, s1) -> cmp K fv sf sz vs e C1 O -> nl C1 = false -> False).
  { intros e1 r1 s1 sf1 C1 H1 H2 H3. destruct (ONE _ _ _ _ _ H1 H2) as (_ & _ & H4 & _). congruence. }
  assert (RL : forall es lr s1 sf C1, evals_rl (eval n fv cl) es s = Some (lr, s1) -> cmp_rl P K fv shc nf sf sz vs es C1 O -> nl C1 = false -> False).
  { intros es lr s1 sf1 C1 H1 H2 H3. pose proof (head_rl n IH _ _ _ _ _ _ _ H1 _ _ _ _ _ H2 HN Hs). congruence. }
  assert (LR : forall es lr s1 sf C1, evals_lr (eval n fv cl) es s = Some (lr, s1) -> cmp_lr P K fv shc nf sf sz vs es C1 O -> nl C1 = false -> False).
  { intros es lr s1 sf1 C1 H1 H2 H3. pose proof (head_lr n IH _ _ _ _ _ _ _ H1 _ _ _ _ _ H2 HN Hs). congruence. }
  assert (T2 : forall c t f sf C1 r1 s1, cmp_test2 P K fv shc nf sf sz vs c t f C1 O -> eval n fv cl c s = Some (r1, s1) -> r1 = RV SAny).
  { intros. eapply head_test2; eauto. }
  assert (PID : passes K sz vs O O) by (split; auto; split; eauto).
  assert (ATOM : forall c C1 r1 s1 l, eval n fv cl c s = Some (r1, s1) -> cmp K fv sf sz vs c (Kbranchif l :: C1) O \/ cmp K fv sf sz vs c (Kbranchifnot l :: C1) O -> r1 = RV SAny).
  { intros c C1 r1 s1 l H1 [H2 | H2]; destruct (ONE _ _ _ _ _ H1 H2) as (-> & _); auto. }
  Ltac e1 n fv cl s HE r1 s1 E1 :=
    match type of HE with
    | context [eval n fv cl ?e s] => destruct (eval n fv cl e s) as [(r1 & s1)|] eqn:E1; [|discriminate HE]
    | context [evals_rl (eval n fv cl) ?e s] => destruct (evals_rl (eval n fv cl) e s) as [(r1 & s1)|] eqn:E1; [|discriminate HE]
    | context [evals_lr (eval n fv cl) ?e s] => destruct (evals_lr (eval n fv cl) e s) as [(r1 & s1)|] eqn:E1; [|discriminate HE]
    end.
  Ltac one1 ONE E1 HP :=
    match type of E1 with
    | Back_Spec.eval _ _ _ _ _ _ _ ?e _ = _ =>
        match goal with H : Back_Rel.cmp _ _ _ _ _ _ _ _ e _ _ |- _ => destruct (ONE _ _ _ _ _ E1 H) as (-> & -> & HP) end
    end.
  destruct e; cbn [Back_Spec.eval] in HE; inversion HC; subst; cbn [nl rety orb] in HN; try discriminate HN;
    try (exfalso; cbn [ident_ok] in HE; e1 n fv cl s HE r1 s1 E1;
         solve [ eapply NO; [exact E1 | eassumption | reflexivity] | eapply RL; [exact E1 | eassumption | reflexivity] | eapply LR; [exact E1 | eassumption | reflexivity] ]).
  - (* const *) destruct O as [|[] O]; discriminate.
  - destruct args; [discriminate|]. exfalso. e1 n fv cl s HE r1 s1 E1. eapply RL; [exact E1 | eassumption | reflexivity].
  - destruct args; [discriminate|]. exfalso. e1 n fv cl s HE r1 s1 E1. eapply RL; [exact E1 | eassumption | reflexivity].
  - (* let unspec *) cbn [evals_let] in HE. e1 n fv cl s HE r1 s1 E1.
    one1 ONE E1 HP. destruct n; [discriminate|].
    cbn [Back_Spec.eval cut loc sto gl] in HE. injection HE as <- <-.
    rewrite firstn_app, Nat.sub_diag, app_nil_r, cut_id. auto.
  - (* let *)
    match goal with H : cmp_let _ _ _ _ _ _ _ _ _ _ _ _ _ |- _ => inversion H; subst end.
    + cbn [evals_let cut] in HE. e1 n fv cl s HE r1 s1 E1. cbn [cut] in HE.
      one1 ONE E1 HP. injection HE as <- <-. rewrite cut_id.
      rewrite zlen_nil, addPop_0 in HP. auto.
    + cbn [evals_let] in HE. exfalso. e1 n fv cl s HE r1 s1 E1. eapply NO; [exact E1 | eassumption | reflexivity].
  - exfalso. destruct (as_clos _) as [cs|] eqn:EC; [|discriminate]. cbn [as_clos as_clo as_vars as_var] in EC.
    destruct (as_vars rest) eqn:EV; [|discriminate]. match goal with H : cmp_rl _ _ _ _ _ _ _ _ _ _ _ |- _ => eapply (rl_vars_nl _ _ _ _ _ _ _ _ _ EV) in H; [|reflexivity] end.
    congruence.
  - exfalso. destruct (as_clos _) as [cs|] eqn:EC; [|discriminate]. cbn [as_clos as_clo] in EC.
    destruct (as_vars (Lvar n0 :: rest)) eqn:EV; [|discriminate]. match goal with H : cmp_rl _ _ _ _ _ _ _ _ _ _ _ |- _ => eapply (rl_vars_nl _ _ _ _ _ _ _ _ _ EV) in H; [|reflexivity] end.
    congruence.
  - exfalso. match goal with H : cmp_init _ _ _ _ _ _ _ _ _ _ _ _ _ _ |- _ => inversion H; subst end; discriminate.
  - cbn [ident_ok evals_lr] in HE. exfalso. e1 n fv cl s HE r1 s1 E1. eapply NO; [exact E1 | eassumption | reflexivity].
  - cbn [ident_ok evals_lr] in HE. exfalso. e1 n fv cl s HE r1 s1 E1. eapply NO; [exact E1 | eassumption | reflexivity].
  - cbn [ident_ok evals_lr] in HE. exfalso. e1 n fv cl s HE r1 s1 E1. eapply NO; [exact E1 | eassumption | reflexivity].
  - cbn [ident_ok evals_lr] in HE. exfalso. e1 n fv cl s HE r1 s1 E1. assert (r1 = RV SAny) by eauto. subst. discriminate.
  - cbn [ident_ok evals_lr] in HE. exfalso. e1 n fv cl s HE r1 s1 E1. assert (r1 = RV SAny) by eauto. subst. discriminate.
  - (* identity *) destruct es as [|e0 [|? ?]]; try discriminate HE. match goal with H : cmp_lr _ _ _ _ _ _ _ _ [e0] _ _ |- _ => inversion H; subst; [|congruence] end.
    cbn [ident_ok length Nat.eqb evals_lr] in HE. e1 n fv cl s HE r1 s1 E1.
    one1 ONE E1 HP. cbn in HE. injection HE as <- <-. auto.
  - exfalso. destruct (ident_ok (Pp q) es); [|discriminate]. e1 n fv cl s HE r1 s1 E1. eapply LR; [exact E1 | eassumption | reflexivity].
  - exfalso. e1 n fv cl s HE r1 s1 E1. eapply NO; [exact E1 | eassumption | eapply decision_nl; eauto].
  - exfalso. e1 n fv cl s HE r1 s1 E1. eapply NO; [exact E1 | eassumption | eapply tests_nl; eauto].
  - (* switch with one case *)
    destruct (negb (simple e)) eqn:ES; [discriminate|]. cbn [Z.eqb Pos.eqb andb] in HE. e1 n fv cl s HE r1 s1 E1.
    apply negb_false_iff in ES. destruct (simple_eval _ _ _ _ _ _ _ ES E1) as (-> & v & ->). cbn [bindV] in HE.
    unfold select_tag in HE. destruct (stag (sto s) v) as [tg|]; [|discriminate].
    match type of HE with context [if ?b then _ else _] => destruct b eqn:EB; [|discriminate] end. cbn in EB.
    cbn [find_key] in HE. assert (tg =? t = true) by lia. rewrite H in HE. eapply ONE; eauto.
  - exfalso. cbn [Z.eqb Pos.eqb andb] in HE. e1 n fv cl s HE r1 s1 E1. assert (r1 = RV SAny) by eauto. subst. discriminate.
  - exfalso. cbn [Z.eqb Pos.eqb andb] in HE. e1 n fv cl s HE r1 s1 E1. assert (r1 = RV SAny) by eauto. subst. discriminate.
  - exfalso. cbn [Z.eqb Pos.eqb andb] in HE. e1 n fv cl s HE r1 s1 E1. assert (r1 = RV SAny) by eauto. subst. discriminate.
  - exfalso. cbn [Z.eqb Pos.eqb andb] in HE. e1 n fv cl s HE r1 s1 E1. assert (r1 = RV SAny) by eauto. subst. discriminate.
  - exfalso. destruct (_ && _); [discriminate|]. e1 n fv cl s HE r1 s1 E1. eapply NO; [exact E1 | eassumption | reflexivity].
  - exfalso. destruct (_ && _); [discriminate|]. e1 n fv cl s HE r1 s1 E1. eapply NO; [exact E1 | eassumption | reflexivity].
  - (* staticfail *) exfalso. unfold addPop in HN. cbn [addPop_] in HN. destruct (sz - snd sf =? 0); discriminate.
  - (* statichandle *) e1 n fv cl s HE r1 s1 E1. one1 ONE E1 HP. injection HE as <- <-. auto.
  - e1 n fv cl s HE r1 s1 E1. one1 ONE E1 HP. injection HE as <- <-.
    split; auto. split; auto. destruct HP as (A1 & A2 & A3).
    assert (HM : mbr P K C br C1) by assumption. split.
    { inversion HM; subst; cbn in A1 |- *; try discriminate; auto. }
    split. { intros R x t HO. apply A2. eapply okC_mbr; eauto. }
    intros R x t ev st w0 s0 h0 g gm ls s1 v HI Hx Hl HO HG. eapply A3 in HG; eauto. 2: { eapply okC_mbr; eauto. }
    eapply goal_mbr; eauto. now rewrite Hl.
  - exfalso. e1 n fv cl s HE r1 s1 E1. assert (r1 = RV SAny) by eauto. subst. discriminate.
  - (* seq *) e1 n fv cl s HE r1 s1 E1. one1 ONE E1 HP. cbn [bindV] in HE.
    match goal with H : Back_Rel.cmp _ _ _ _ _ _ _ _ _ C _ |- _ => destruct (IH _ _ _ _ _ _ HE _ _ _ _ _ _ H (proj1 HP) Hs) as (-> & -> & HP2) end. split; auto. split; auto. eapply passes_trans; eauto.
  - exfalso. e1 n fv cl s HE r1 s1 E1. assert (r1 = RV SAny) by eauto. subst. discriminate.
  - exfalso. e1 n fv cl s HE r1 s1 E1. assert (r1 = RV SAny) by eauto. subst. discriminate.
  - exfalso. e1 n fv cl s HE r1 s1 E1. assert (r1 = RV SAny) by eauto. subst. discriminate.
  - exfalso. e1 n fv cl s HE r1 s1 E1. assert (r1 = RV SAny) by eauto. subst. discriminate.
  - (* unspec *) injection HE as <- <-. auto.
  - (* shared *) match goal with H : shc k = Some _ |- _ => rewrite H in HE end.
    match goal with H : lab _ _ _ _ _ |- _ => rename H into HL end.
    match goal with H : Back_Rel.cmp _ _ _ _ _ _ _ _ _ C _ |- _ => destruct (IH _ _ _ _ _ _ HE _ _ _ _ _ _ H (lab_nl _ _ _ _ HL HN) Hs) as (-> & -> & HP) end. split; auto. split; auto.
    eapply passes_trans; [exact HP|].
    pose proof (lab_nl _ _ _ _ HL HN) as HN2. split; auto. inversion HL; subst; [discriminate HN | split; auto |].
    split. { intros R x t HO. now apply okC_label. }
    intros R x t ev st w0 s0 h0 g gm ls s1 v HI Hx Hl HO HG. eapply goal_label; eauto. now rewrite Hl.
Qed.
End Head.
