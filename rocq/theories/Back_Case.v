(** The simulation for case analysis. *)
From Verif Require Import Base Opcodes Back_Model Back_Spec Back_Rel.
From Verif Require Import Back_Sim Back_Goal Back_Tree Back_Main Back_Lists Back_Terms Back_Defs Back_Prims Back_Ok Back_Head Back_Ctl.

Section Case.
Variable mp : prims.
Variable p : sprims.
Variable P : list instr.
Variable base : Z.
Variable F : Z -> option fundef.
Variable shc : nat -> option lam.
Variable nf : lam -> Prop.
Notation ar := (prim_arity mp).
Notation eval := (eval p ar F shc).
Notation step := (step mp P base).
Notation J := (J mp P base).
Notation vrel := (vrel F).
Notation Inv := (Inv F mp p).
Notation stk := (stk F).
Notation out := (out mp p P base F).
Notation goal := (goal mp P base F).
Notation abrt := (abrt mp P base F).
Notation land := (land mp P base F).
Notation retgoal := (retgoal mp P base F).
Notation conf := (conf mp p base F).
Notation simE := (simE mp p P base F shc nf).
Notation sim := (sim mp p P base F shc nf).
Notation rety_frame := (rety_frame base F).
Notation addPop_ok := (addPop_ok F).
Notation slots_le := (slots_le F).
Notation okC_same := (okC_same P).
Notation okC_mbr := (okC_mbr P).
Notation cmp := (fun K fv => cmp P K fv shc nf).
Notation cmp_rl := (fun K fv => cmp_rl P K fv shc nf).
Notation cmp_init := (fun K fv => cmp_init P K fv shc nf).
Notation cmp_args := (fun K fv => cmp_args P K fv shc nf).
Notation conf_all := (conf_all mp p base F).
Notation conf_next := (conf_next mp p base F).
Notation conf_push := (conf_push mp p base F).
Notation conf_bind := (conf_bind mp p base F).
Notation conf_dp := (conf_dp mp p base F).
Notation rl_sim := (rl_sim mp p P base F shc nf).
Notation let_sim := (let_sim mp p P base F shc nf).
Variable n : nat.
Hypothesis IH : sim n.
Hypothesis CO : code_ok P F shc nf.
Notation sub_abrt := (sub_abrt mp p P base F shc nf n IH).
Notation sub_plain := (sub_plain mp p P base F shc nf n IH).

Ltac start := intros fv cl s r s' HE K sf sz vs C O HC w h gm st R x t ev acc HF HO; cbn [Back_Spec.eval] in HE;
  destruct (conf_all _ _ _ _ _ _ _ _ _ _ _ _ _ HF) as (HL & SL & Hsf & Ht & Hx & Hb & HI & HS & HEN); subst sz.

Hypothesis PO : prims_ok mp p F.
Notation okc_cmp := (fun K fv => okc_cmp P K fv shc nf F).
Notation head_ok := (head_ok mp p P base F shc nf CO).
Notation cmp_test2 := (fun K fv => cmp_test2 P K fv shc nf).
Ltac hb H := match type of H with context [bindV ?a _] => let r := fresh "r1" in let s := fresh "s1" in let E := fresh "E1" in destruct a as [(r & s)|] eqn:E; [|discriminate H]; cbn [bindV] in H end.

Notation cmp_cases := (fun K fv => cmp_cases P K fv shc nf).
Notation cmp_case := (fun K fv => cmp_case P K fv shc nf).
Notation cmp_dec := (fun K fv => cmp_dec P K fv shc nf).
Notation cmp_act := (fun K fv => cmp_act P K fv shc nf).
Notation cmp_side := (fun K fv => cmp_side P K fv shc nf).
Notation cmp_decision := (fun K fv => cmp_decision P K fv shc nf).
Notation cmp_tests := (fun K fv => cmp_tests P K fv shc nf).
Notation mbr_out := (mbr_out mp p P base F shc nf CO).
Notation mbr_out_l := (mbr_out_l mp p P base F shc nf CO).
Notation conf_land := (conf_land mp p base F).

(** ** Tables *)
Lemma swt_J K t X C2 i l a sp0 ev x tt h gm : swt P K t X C2 -> 0 <= i -> nth_error t (Z.to_nat i) = Some l -> a = VInt i ->
  J (mkM (C2 ++ K) a sp0 ev x tt h gm) (mkM (target P l) a sp0 ev x tt h gm).
Proof.
  intros HS Hi HN ->. inversion HS as [l0 r C HF HT | l0 r C D HF | ? ?]; subst.
  - assert (l = l0) as ->. { destruct (Z.to_nat i) as [|k]; cbn in HN; [congruence|]. apply nth_error_In in HN. rewrite Forall_forall in HF. symmetry. auto. }
    rewrite HT. eapply J_step_l; [reflexivity|]. apply J_refl.
  - assert (l = l0) as ->. { destruct (Z.to_nat i) as [|k]; cbn in HN; [congruence|]. apply nth_error_In in HN. rewrite Forall_forall in HF. symmetry. auto. }
    eapply J_step_l; [reflexivity|]. apply J_refl.
  - eapply J_step_l; [|apply J_refl]. cbn [app step pc accu]. destruct (i <? 0) eqn:E; [lia|]. rewrite HN. reflexivity.
Qed.
Lemma cases_look K fv sf sz vs br v : forall C t C1, cmp_cases K fv sf sz vs br C v t C1 -> forall i e, nth_error v i = Some e ->
  exists l D Ce C3, nth_error t i = Some l /\ cmp K fv sf sz vs e (br :: D) Ce /\ lab P K Ce l C3.
Proof.
  induction v as [|e0 v IHv]; intros C t C1 H i e HN; [destruct i; discriminate|].
  inversion H as [|? ? ? ? ? ? ? t' C' Ce l C2 H1 H2 H3]; subst. destruct i as [|i]; cbn in HN.
  - injection HN as ->. exists l, (discardDeadCode C'), Ce, C1. auto.
  - destruct (IHv _ _ _ H1 _ _ HN) as (l' & D & Ce' & C3 & A & B & E). exists l', D, Ce', C3. auto.
Qed.
Lemma case_look K fv sf sz vs br C1 t cl : forall t' C2, cmp_case K fv sf sz vs br C1 t cl t' C2 -> zlen t' = zlen t /\
  forall i, 0 <= i < zlen t -> match find_key i cl with
    | Some e => exists l X Ce C3, nth_error t' (Z.to_nat i) = Some l /\ cmp K fv sf sz vs e X Ce /\ lab P K Ce l C3 /\ (X = C1 \/ exists D, X = br :: D)
    | None => nth_error t' (Z.to_nat i) = nth_error t (Z.to_nat i) end.
Proof.
  induction cl as [|(tag & e) cl IHc]; intros t' C2 H; [inversion H|].
  inversion H as [? ? ? ? ? ? ? ? Ce l C3 H1 H2 H3 | ? ? ? ? ? ? ? ? ? t1 Cr Ce l C3 NE H0 H1 H2 H3]; subst.
  - rewrite zlen_set. split; auto. intros i Hi. cbn [find_key]. rewrite nth_error_set_nth. destruct (i =? tag) eqn:E.
    + assert (i = tag) as -> by lia. rewrite Nat.eqb_refl. exists l, C1, Ce, C2. split; auto.
      destruct (nth_error t (Z.to_nat tag)) eqn:EN; auto. apply nth_error_None in EN. unfold zlen in *. lia.
    + destruct (Nat.eqb_spec (Z.to_nat i) (Z.to_nat tag)); [lia|reflexivity].
  - destruct (IHc _ _ H0) as (L & IHc'). rewrite zlen_set. split; auto. intros i Hi. cbn [find_key]. rewrite nth_error_set_nth. destruct (i =? tag) eqn:E.
    + assert (i = tag) as -> by lia. rewrite Nat.eqb_refl. exists l, (br :: discardDeadCode Cr), Ce, C2. split; [|split; [|split]]; eauto.
      destruct (nth_error t1 (Z.to_nat tag)) eqn:EN; auto. apply nth_error_None in EN. unfold zlen in *. lia.
    + destruct (Nat.eqb_spec (Z.to_nat i) (Z.to_nat tag)); [lia|]. now apply IHc'.
Qed.

(** ** One arm *)
Lemma arm_sim K fv sf sz vs C br C1 X Ce l C3 e cl s r s' w h gm st R x t ev a s0 :
  mbr P K C br C1 -> (X = C1 \/ exists D, X = br :: D) -> cmp K fv sf sz vs e X Ce -> lab P K Ce l C3 ->
  okC R x t sz C -> conf s cl w h gm st R x t ev sf sz vs -> eval n fv cl e s = Some (r, s') ->
  J s0 (mkM (target P l) a (st ++ R) ev x t h gm) -> out K R x t ev sf vs C s0 w (sto s) h st r s'.
Proof.
  intros HM HX HC HLb HO HF HE HJ.
  destruct (conf_all _ _ _ _ _ _ _ _ _ _ _ _ _ HF) as (HL & SL & Hsf & Ht & Hx & Hb & HI & HS & HEN). subst sz.
  destruct (okC_mbr _ _ _ _ _ _ _ _ HM (zlen_ge0 st) HO) as (O1 & O2).
  eapply out_J; [eapply J_trans; [exact HJ | apply (J_lab mp P base K x t ev h gm _ _ _ a (st ++ R) HLb)]|].
  destruct HX as [-> | (D & ->)].
  - eapply mbr_out_l; [exact HM | exact HO | exact Hx|]. eapply (IH e); eauto.
  - eapply mbr_out with (D := D); [exact HM | exact HO | exact Hx|]. eapply (IH e); eauto.
Qed.
Lemma act_sim K fv sf sz vs C br C1 Cl Ca act i e cl s r s' w h gm st R x t ev :
  mbr P K C br C1 -> cmp_act K fv sf sz vs br act Cl Ca -> 0 <= i -> nth_error act (Z.to_nat i) = Some e ->
  okC R x t sz C -> conf s cl w h gm st R x t ev sf sz vs -> eval n fv cl e s = Some (r, s') ->
  out K R x t ev sf vs C (mkM (Ca ++ K) (VInt i) (st ++ R) ev x t h gm) w (sto s) h st r s'.
Proof.
  intros HM HA Hi HN HO HF HE.
  destruct (conf_all _ _ _ _ _ _ _ _ _ _ _ _ _ HF) as (HL & SL & Hsf & Ht & Hx & Hb & HI & HS & HEN). subst sz.
  destruct (okC_mbr _ _ _ _ _ _ _ _ HM (zlen_ge0 st) HO) as (O1 & O2).
  inversion HA as [? ? ? ? a0 ? ? HC | ? ? ? ? ? ? tb C2 ? HC HW]; subst.
  - assert (a0 = e) as ->. { destruct (Z.to_nat i) as [|k]; cbn in HN; [congruence|]. destruct k; discriminate. }
    eapply mbr_out with (D := discardDeadCode Cl); [exact HM | exact HO | exact Hx|]. eapply (IH e); eauto.
  - destruct (cases_look _ _ _ _ _ _ _ _ _ _ HC _ _ HN) as (l & D & Ce & C3 & A1 & A2 & A3).
    eapply arm_sim; [exact HM | right; exists D; reflexivity | exact A2 | exact A3 | exact HO | exact HF | exact HE|].
    eapply swt_J; [exact HW | exact Hi | exact A1 | reflexivity].
Qed.
Lemma fail_here K R x t ev sf sz vs C s w h gm st s0 a cl : conf s cl w h gm st R x t ev sf sz vs -> sz = snd sf ->
  J s0 (mkM (target P (fst sf)) a (st ++ R) ev x t h gm) -> out K R x t ev sf vs C s0 w (sto s) h st RF s.
Proof.
  intros HF HZ HJ. destruct (conf_all _ _ _ _ _ _ _ _ _ _ _ _ _ HF) as (HL & SL & Hsf & Ht & Hx & Hb & HI & HS & HEN).
  eapply fail_out; [lia|..]; eauto using ext_refl, keep_refl.
Qed.
Lemma dec_sim K fv sf sz vs C br C1 cl s r s' w h gm st R x t ev n0 :
  mbr P K C br C1 -> okC R x t sz C -> conf s cl w h gm st R x t ev sf sz vs -> sz = snd sf ->
  forall tr, dwf tr -> forall C0 O, cmp_dec K fv sf sz vs br tr C0 O ->
  match dlook tr n0 with Some e => eval n fv cl e s = Some (r, s') | None => r = RF /\ s' = s end ->
  out K R x t ev sf vs C (mkM (O ++ K) (VInt n0) (st ++ R) ev x t h gm) w (sto s) h st r s'.
Proof.
  intros HM HO HF HZ. pose proof (c_len _ _ _ _ _ _ _ _ _ _ _ _ _ _ _ _ _ HF) as HL.
  induction tr as [|dl IHl low act high dr IHr]; intros WF C0 O HD HE.
  - inversion HD; subst. destruct HE as (-> & ->). eapply fail_here; [exact HF | lia|]. eapply J_step_l; [reflexivity|]. apply J_refl.
  - destruct WF as (WL & WR & WA). inversion HD as [|? ? ? ? ? ? ? ? ? ? lr Cr ll Cl Ca SR SL SA]; subst. cbn [dlook] in HE.
    assert (SIDE : forall tr C0 l0 X, cmp_side K fv sf (snd sf) vs br tr C0 l0 X -> dwf tr ->
      (dwf tr -> forall C0 O, cmp_dec K fv sf (snd sf) vs br tr C0 O ->
        match dlook tr n0 with Some e => eval n fv cl e s = Some (r, s') | None => r = RF /\ s' = s end ->
        out K R x t ev sf vs C (mkM (O ++ K) (VInt n0) (st ++ R) ev x t h gm) w (sto s) h st r s') ->
      match dlook tr n0 with Some e => eval n fv cl e s = Some (r, s') | None => r = RF /\ s' = s end ->
      out K R x t ev sf vs C (mkM (target P l0) (VInt n0) (st ++ R) ev x t h gm) w (sto s) h st r s').
    { intros tr C2 l0 X HS W HT HE'. inversion HS as [|? ? ? ? ? ? Ct ? ? HD1 HLb]; subst.
      - destruct HE' as (-> & ->). eapply fail_here; [exact HF | lia | apply J_refl].
      - eapply out_J; [apply (J_lab mp P base K x t ev h gm _ _ _ _ (st ++ R) HLb)|]. eapply HT; eauto. }
    destruct (n0 <? low) eqn:E1.
    { eapply out_J; [|eapply (SIDE dl); eauto]. eapply J_step_l; [|apply J_refl]. cbn [app step pc accu]. rewrite E1. reflexivity. }
    destruct (high <? n0) eqn:E2.
    { eapply out_J; [|eapply (SIDE dr); eauto]. eapply J_step_l; [|apply J_refl]. cbn [app step pc accu]. rewrite E1, E2. reflexivity. }
    destruct (WA n0 ltac:(lia)) as (e & EA). rewrite EA in HE.
    eapply out_J; [|eapply act_sim with (i := n0 - low); [exact HM | exact SA | lia | exact EA | exact HO | exact HF | exact HE]].
    eapply J_step_l; [|apply J_refl]. cbn [app step pc accu]. rewrite E1, E2. reflexivity.
Qed.
Lemma dec_plain K fv sf sz vs tr C O : cmp_decision K fv sf sz vs tr C O -> exists i D, O = i :: D /\ plain O = true /\
  match i with Kpop _ | Kreturn _ | Klabel _ => False | _ => True end.
Proof. intros H. inversion H as [? ? ? ? ? ? ? ? HZ HM HD]; subst. inversion HD; subst; eexists _, _; repeat split. Qed.
Lemma decision_sim K fv sf sz vs C O cl l s r s' w h gm st R x t ev n0 tr :
  cmp_decision K fv sf sz vs tr C O -> compileNBranch l = Ret tr -> distinct (map fst l) = true ->
  okC R x t sz C -> conf s cl w h gm st R x t ev sf sz vs ->
  match find_key n0 l with Some e => eval n fv cl e s = Some (r, s') | None => r = RF /\ s' = s end -> (0 < n)%nat ->
  out K R x t ev sf vs C (mkM (O ++ K) (VInt n0) (st ++ R) ev x t h gm) w (sto s) h st r s'.
Proof.
  intros HD HT DI HO HF HE Hn. inversion HD as [? ? ? ? ? ? C1 ? HZ HM HD1]; subst.
  eapply (dec_sim K fv sf _ vs C br C1 cl s r s' w h gm st R x t ev n0); [exact HM | exact HO | exact HF | reflexivity | eapply compileNBranch_wf; eauto | exact HD1|].
  pose proof (compileNBranch_ok l tr n0 HT DI) as HL. destruct (dlook tr n0) as [e|].
  - destruct HL as [HL | (-> & HL)]; rewrite HL in HE; auto. destruct HE as (-> & ->). destruct n; [lia|reflexivity].
  - now rewrite HL in HE.
Qed.

(** ** Constants compared one after the other *)
Lemma tests_sim K fv sf sz vs C br C1 cl s r s' w h gm st R x t ev v a :
  mbr P K C br C1 -> okC R x t sz C -> conf s cl w h gm st R x t ev sf sz vs -> sz = snd sf -> vrel w (sto s) h v a ->
  forall cs C2 o, cmp_tests K fv sf sz vs br C1 cs C2 -> find_case p v cs (sto s) = Some o ->
  match o with Some e => eval n fv cl e s = Some (r, s') | None => r = RF /\ s' = s end ->
  out K R x t ev sf vs C (mkM (C2 ++ K) a (st ++ R) ev x t h gm) w (sto s) h st r s'.
Proof.
  intros HM HO HF HZ HV.
  destruct (conf_all _ _ _ _ _ _ _ _ _ _ _ _ _ HF) as (HL & SL & Hsf & Ht & Hx & Hb & HI & HS & HEN). assert (HZ' : zlen st = snd sf) by lia. clear HZ. subst sz.
  destruct (okC_mbr _ _ _ _ _ _ _ _ HM (zlen_ge0 st) HO) as (O1 & O2).
  induction cs as [|(c & e) cs IHc]; intros C2 o HT HFC HE; [inversion HT|]. cbn [find_case] in HFC.
  assert (exists b, is_imm (testForAtom c) = true /\ test_imm mp (testForAtom c) a h = Some b /\
    (if b then Some (Some e) else find_case p v cs (sto s)) = Some o) as (b & IM & TI & HFC').
  { destruct c as [i | i | i | k | k]; try discriminate.
    - destruct (sxtest p (Pfloat_test PTeq) v (slit p k) (sto s)) as [b|] eqn:E; [|discriminate]. exists b. split; [reflexivity|]. split; [|now destruct b].
      cbn. eapply (po_test _ _ _ PO); eauto. apply (i_lit _ _ _ _ _ _ _ _ HI).
    - destruct (sxtest p (Pstring_test PTeq) v (slit p k) (sto s)) as [b|] eqn:E; [|discriminate]. exists b. split; [reflexivity|]. split; [|now destruct b].
      cbn. eapply (po_test _ _ _ PO); eauto. apply (i_lit _ _ _ _ _ _ _ _ HI). }
  assert (ST : forall l X, step (mkM (Ktest (testForAtom c) l :: X) a (st ++ R) ev x t h gm) = Some (mkM (if b then X else target P l) a (st ++ R) ev x t h gm)).
  { intros l X. cbn [step pc accu heap]. rewrite IM, TI. now destruct b. }
  inversion HT as [? ? ? ? ? ? ? Ce HC | ? ? ? ? ? ? ? ? l Cr Ce NE HT' HTg HC]; subst.
  - eapply out_J; [eapply J_step_l; [apply ST | apply J_refl]|]. destruct b.
    + injection HFC' as <-. eapply mbr_out_l; [exact HM | exact HO | exact Hx|]. eapply (IH e); eauto.
    + injection HFC' as <-. destruct HE as (-> & ->). eapply fail_here; [exact HF | auto | apply J_refl].
  - eapply out_J; [eapply J_step_l; [apply ST | apply J_refl]|]. destruct b.
    + injection HFC' as <-. eapply mbr_out with (D := Klabel l :: Cr); [exact HM | exact HO | exact Hx|]. eapply (IH e); eauto.
    + rewrite HTg. eapply IHc; eauto.
Qed.
Lemma tests_plain K fv sf sz vs br C1 cs C2 : cmp_tests K fv sf sz vs br C1 cs C2 -> exists i l D, C2 = Ktest i l :: D.
Proof. intros H. inversion H; subst; eauto. Qed.

Lemma int_clauses_keys cl : forall l, int_clauses cl = Ret l -> scon_keys cl = Some l.
Proof.
  induction cl as [|(c & e) cl IHc]; intros l H; cbn in *; [congruence|].
  destruct c; cbn in *; try discriminate H; destruct (int_clauses cl) as [l0| | |]; try discriminate H; injection H as <-; now rewrite (IHc _ eq_refl).
Qed.
Lemma t_case a cl0 : simE (S n) (Lcase a cl0).
Proof.
  start. hb HE. inversion HC as [ |  |  |  |  |  |  |  |  |  |  |  |  |  |  |  |  |  |  |  |  |  |  |  |  |  |  |  |  |  |  |  |  |  |  |  |  |  |  |  |  |  |  |  |  |  | ? ? ? ? ? l tr ? C1 ? HIC HNB NE HD HC1 | ? ? ? ? ? br ? C1 C2 ? HI0 HM HZ HT HC1 |  |  |  |  |  |  |  |  |  | ]; subst.
  - destruct (dec_plain _ _ _ _ _ _ _ _ HD) as (i & D & -> & PL & NI).
    assert (OKA : okC R x t (zlen st) (i :: D)) by (apply okC_plain; [lia | exact NI]).
    destruct r1 as [v | v |].
    2,3: injection HE as <- <-; eapply sub_abrt; [exact E1 | reflexivity | exact HC1 | exact OKA | exact HF].
    destruct (sub_plain _ _ _ _ _ _ _ _ _ _ _ _ _ _ _ _ _ _ _ _ acc E1 HC1 PL OKA HF) as (w1 & h1 & gm1 & st1 & a1 & A1 & A2 & A3 & A4 & A5).
    eapply out_seq; [exact A5 | exact A1 | exact A3|].
    destruct cl0 as [|(c & e) r0]; [easy|]. apply int_clauses_keys in HIC.
    assert (SK : exists k, scon_key c = Some k) by (cbn in HIC; destruct (scon_key c); [eauto|discriminate]).
    destruct SK as (k & SK). cbn [select_case] in HE. rewrite SK, HIC in HE. destruct v as [n0 | | | |]; try discriminate HE.
    destruct (distinct (map fst l)) eqn:DI; [|discriminate]. cbn in A4. subst a1.
    eapply decision_sim; [exact HD | exact HNB | exact DI | exact HO | exact A2 | | destruct n; [discriminate E1|lia]].
    destruct (find_key n0 l); auto. now injection HE as <- <-.
  - destruct (tests_plain _ _ _ _ _ _ _ _ _ HT) as (i & lb & D & ->).
    assert (OKA : okC R x t (zlen st) (Ktest i lb :: D)) by (apply okC_plain; [lia | exact I]).
    destruct r1 as [v | v |].
    2,3: injection HE as <- <-; eapply sub_abrt; [exact E1 | reflexivity | exact HC1 | exact OKA | exact HF].
    destruct (sub_plain _ _ _ _ _ _ _ _ _ _ _ _ _ _ _ _ _ _ _ _ acc E1 HC1 eq_refl OKA HF) as (w1 & h1 & gm1 & st1 & a1 & A1 & A2 & A3 & A4 & A5).
    eapply out_seq; [exact A5 | exact A1 | exact A3|].
    destruct (select_case p v cl0 (sto s1)) as [o|] eqn:ES; [|discriminate].
    assert (FC : find_case p v cl0 (sto s1) = Some o).
    { destruct cl0 as [|(c & e) r0]; [easy|]. unfold select_case in ES. destruct c; try discriminate HI0; exact ES. }
    eapply tests_sim; [exact HM | exact HO | exact A2 | exact HZ | exact A4 | exact HT | exact FC|].
    destruct o; auto. now injection HE as <- <-.
Qed.

(** ** Constructors *)
Lemma full_keys size cl i : distinct (map fst cl) = true -> forallb (fun c => (0 <=? fst c) && (fst c <? size)) cl = true ->
  size = zlen cl -> 0 <= i < size -> exists e : lam, find_key i cl = Some e.
Proof.
  intros D R0 L Hi. apply distinct_NoDup in D.
  assert (IN : In i (map fst cl)).
  { set (all := map Z.of_nat (seq 0 (length cl))).
    assert (I1 : incl (map fst cl) all).
    { intros k Hk. apply in_map_iff in Hk as ((k' & e) & <- & Hk). rewrite forallb_forall in R0. apply R0 in Hk. cbn in *.
      apply in_map_iff. exists (Z.to_nat k'). split; [lia|]. apply in_seq. unfold zlen in L. lia. }
    assert (I2 : incl all (map fst cl)).
    { apply NoDup_length_incl; auto. subst all. rewrite !map_length, seq_length. lia. }
    apply I2. apply in_map_iff. exists (Z.to_nat i). split; [lia|]. apply in_seq. unfold zlen in L. lia. }
  clear - IN. induction cl as [|(k & e) cl IHc]; cbn in *; [easy|]. destruct (i =? k) eqn:E; eauto. destruct IN as [IN | IN]; [lia|auto].
Qed.
Lemma select_tag_inv size v cl s o : select_tag size v cl s = Some o -> exists tg, stag s v = Some tg /\ 0 <= tg < size /\
  distinct (map fst cl) = true /\ forallb (fun c => (0 <=? fst c) && (fst c <? size)) cl = true /\ cl <> [] /\ find_key tg cl = o.
Proof.
  unfold select_tag. destruct (stag s v) as [tg|]; [|discriminate]. intros H. exists tg.
  destruct (0 <=? tg) eqn:E1; cbn [andb] in H; [|discriminate]. destruct (tg <? size) eqn:E2; cbn [andb] in H; [|discriminate].
  destruct (distinct (map fst cl)) eqn:E3; cbn [andb] in H; [|discriminate]. destruct (forallb _ cl) eqn:E4; cbn [andb] in H; [|discriminate].
  destruct (Nat.eqb_spec (length cl) 0) as [E5|E5]; [discriminate|]. injection H as <-. repeat split; auto; try lia. intros ->. now apply E5.
Qed.
Lemma t_switch size a cl0 : simE (S n) (Lswitch size a cl0).
Proof.
  start. destruct ((size =? 1) && negb (simple a)) eqn:ES1; [discriminate|]. hb HE.
  assert (SF : forall s, eval n fv cl Lstaticfail s = Some (RF, s)) by (destruct n; [discriminate E1 | reflexivity]).
  inversion HC as [ |  |  |  |  |  |  |  |  |  |  |  |  |  |  |  |  |  |  |  |  |  |  |  |  |  |  |  |  |  |  |  |  |  |  |  |  |  |  |  |  |  |  |  |  |  |  |  | ? ? ? ? tg0 e ? ? HC1 | ? ? ? ? e ? ? HT | ? ? ? ? e ? ? HT | ? ? ? ? e0 e1 ? ? HT | ? ? ? ? e0 e1 ? ? HT | ? ? ? ? ? ? ? br C1 tb C2 C3 ? HZ HM HCS HW HC1 | ? ? ? ? ? ? tr ? C1 ? HNB HD HC1 |  |  | ]; subst.
  - cbn in ES1. destruct (simple a) eqn:SA; [|discriminate]. destruct (simple_eval mp p F shc n _ _ _ _ _ _ SA E1) as (-> & (v & ->)).
    destruct (select_tag 1 v [(tg0, e)] (sto s)) as [o|] eqn:ES; [|discriminate]. apply select_tag_inv in ES as (tg & T1 & T2 & _ & T3 & _ & T4).
    cbn in T3, T4. replace (tg =? tg0) with true in T4 by lia. subst o. eapply (IH e); eauto.
  - eapply test2_sim; [exact IH | exact CO | exact HT | exact E1 | | exact HF | exact HO].
    destruct r1 as [v | v |]; [|now injection HE as <- <-|now injection HE as <- <-].
    destruct (select_tag _ v _ (sto s1)) as [o|] eqn:ES; [|discriminate]. apply select_tag_inv in ES as (tg & T1 & T2 & _ & T3 & _ & T4).
    exists tg. split; auto. cbn in T4. destruct (tg =? 0); subst o; auto. rewrite SF. exact HE.
  - eapply test2_sim; [exact IH | exact CO | exact HT | exact E1 | | exact HF | exact HO].
    destruct r1 as [v | v |]; [|now injection HE as <- <-|now injection HE as <- <-].
    destruct (select_tag _ v _ (sto s1)) as [o|] eqn:ES; [|discriminate]. apply select_tag_inv in ES as (tg & T1 & T2 & _ & T3 & _ & T4).
    exists tg. split; auto. cbn in T4. destruct (tg =? 0) eqn:E0.
    + replace (tg =? 1) with false in T4 by lia. subst o. rewrite SF. exact HE.
    + replace (tg =? 1) with true in T4 by lia. subst o. exact HE.
  - eapply test2_sim; [exact IH | exact CO | exact HT | exact E1 | | exact HF | exact HO].
    destruct r1 as [v | v |]; [|now injection HE as <- <-|now injection HE as <- <-].
    destruct (select_tag _ v _ (sto s1)) as [o|] eqn:ES; [|discriminate]. apply select_tag_inv in ES as (tg & T1 & T2 & _ & T3 & _ & T4).
    exists tg. split; auto. cbn in T4. destruct (tg =? 0) eqn:E0; [now subst o|]. replace (tg =? 1) with true in T4 by lia. now subst o.
  - eapply test2_sim; [exact IH | exact CO | exact HT | exact E1 | | exact HF | exact HO].
    destruct r1 as [v | v |]; [|now injection HE as <- <-|now injection HE as <- <-].
    destruct (select_tag _ v _ (sto s1)) as [o|] eqn:ES; [|discriminate]. apply select_tag_inv in ES as (tg & T1 & T2 & _ & T3 & _ & T4).
    exists tg. split; auto. cbn in T4. destruct (tg =? 0) eqn:E0.
    + replace (tg =? 1) with false in T4 by lia. now subst o.
    + replace (tg =? 1) with true in T4 by lia. now subst o.
  - assert (OKA : okC R x t (zlen st) (Kprim Ptag_of :: C3)) by (apply okC_plain; [lia | exact I]).
    destruct r1 as [v | v |].
    2,3: injection HE as <- <-; eapply sub_abrt; [exact E1 | reflexivity | exact HC1 | exact OKA | exact HF].
    destruct (sub_plain _ _ _ _ _ _ _ _ _ _ _ _ _ _ _ _ _ _ _ _ acc E1 HC1 eq_refl OKA HF) as (w1 & h1 & gm1 & st1 & a1 & A1 & A2 & A3 & A4 & A5).
    destruct (conf_all _ _ _ _ _ _ _ _ _ _ _ _ _ A2) as (HL1 & SL1 & _ & _ & _ & _ & HI1 & HS1 & _).
    destruct (select_tag _ v _ (sto s1)) as [o|] eqn:ES; [|discriminate]. apply select_tag_inv in ES as (tg & T1 & T2 & T3 & T4 & _ & T5).
    assert (TV : tag_val h1 a1 = Some tg) by (eapply stag_tag; eauto).
    eapply out_seq; [eapply J_trans; [exact A5|]; eapply J_step_l; [|apply J_refl] | exact A1 | exact A3|].
    { cbn [app step pc accu heap Ptag_of]. change (TAGOF =? UPDATE) with false. change (TAGOF =? BOOLNOT) with false. rewrite (Z.eqb_refl TAGOF), TV. reflexivity. }
    unfold set_acc. cbn [sp env extra trap heap glob].
    destruct (case_look _ _ _ _ _ _ _ _ _ _ _ HCS) as (LT & CL). assert (LR : zlen (repeat (fst sf) (Z.to_nat size)) = size) by (unfold zlen; rewrite repeat_length; lia).
    rewrite LR in *. specialize (CL tg T2). rewrite T5 in CL. destruct o as [e|].
    + destruct CL as (l & X & Ce & C4 & B1 & B2 & B3 & B4).
      eapply arm_sim; [exact HM | exact B4 | exact B2 | exact B3 | exact HO | exact A2 | exact HE|].
      eapply swt_J with (i := tg); [exact HW | lia | exact B1 | reflexivity].
    + injection HE as <- <-. destruct HZ as [HZ | HZ].
      2: { destruct (full_keys size cl0 tg T3 T4 HZ ltac:(lia)) as (e & FK). congruence. }
      eapply fail_here; [exact A2 | lia|]. eapply swt_J with (i := tg); [exact HW | lia | | reflexivity]. rewrite CL. apply nth_error_repeat. lia.
  - assert (OKA : okC R x t (zlen st) (Kprim Ptag_of :: C1)) by (apply okC_plain; [lia | exact I]).
    destruct r1 as [v | v |].
    2,3: injection HE as <- <-; eapply sub_abrt; [exact E1 | reflexivity | exact HC1 | exact OKA | exact HF].
    destruct (sub_plain _ _ _ _ _ _ _ _ _ _ _ _ _ _ _ _ _ _ _ _ acc E1 HC1 eq_refl OKA HF) as (w1 & h1 & gm1 & st1 & a1 & A1 & A2 & A3 & A4 & A5).
    destruct (conf_all _ _ _ _ _ _ _ _ _ _ _ _ _ A2) as (HL1 & SL1 & _ & _ & _ & _ & HI1 & HS1 & _).
    destruct (select_tag _ v _ (sto s1)) as [o|] eqn:ES; [|discriminate]. apply select_tag_inv in ES as (tg & T1 & T2 & T3 & T4 & _ & T5).
    assert (TV : tag_val h1 a1 = Some tg) by (eapply stag_tag; eauto).
    eapply out_seq; [eapply J_trans; [exact A5|]; eapply J_step_l; [|apply J_refl] | exact A1 | exact A3|].
    { cbn [app step pc accu heap Ptag_of]. change (TAGOF =? UPDATE) with false. change (TAGOF =? BOOLNOT) with false. rewrite (Z.eqb_refl TAGOF), TV. reflexivity. }
    unfold set_acc. cbn [sp env extra trap heap glob].
    eapply decision_sim; [exact HD | exact HNB | exact T3 | exact HO | exact A2 | | destruct n; [discriminate E1|lia]].
    rewrite T5. destruct o; auto. now injection HE as <- <-.
Qed.
End Case.
