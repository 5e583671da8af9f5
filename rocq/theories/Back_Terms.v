(** The simulation for variables, constants, calls and definitions. *)
From Verif Require Import Base Opcodes Back_Model Back_Spec Back_Rel.
From Verif Require Import Back_Sim Back_Goal Back_Tree Back_Main Back_Lists.

Section Terms.
Variable mp : prims.
Variable p : sprims.
Variable P : list instr.
Variable base : Z.
Variable F : Z -> option fundef.
Variable shc : nat -> option lam.
Variable nf : lam -> Prop.
Notation ar := (prim_arity mp).
Notation eval := (eval p ar F shc).
Notation step := (step mp P base).
Notation J := (J mp P base).
Notation vrel := (vrel F).
Notation Inv := (Inv F mp p).
Notation stk := (stk F).
Notation out := (out mp p P base F).
Notation goal := (goal mp P base F).
Notation abrt := (abrt mp P base F).
Notation land := (land mp P base F).
Notation retgoal := (retgoal mp P base F).
Notation conf := (conf mp p base F).
Notation simE := (simE mp p P base F shc nf).
Notation sim := (sim mp p P base F shc nf).
Notation rety_frame := (rety_frame base F).
Notation addPop_ok := (addPop_ok F).
Notation slots_le := (slots_le F).
Notation okC_same := (okC_same P).
Notation okC_mbr := (okC_mbr P).
Notation cmp := (fun K fv => cmp P K fv shc nf).
Notation cmp_rl := (fun K fv => cmp_rl P K fv shc nf).
Hypothesis CO : code_ok P F shc nf.

Lemma conf_all s cl w h gm st R x t ev sf sz vs : conf s cl w h gm st R x t ev sf sz vs ->
  zlen st = sz /\ slots vs st /\ 0 <= snd sf <= sz /\ t <= sz + zlen R /\ 0 <= x /\ base <= zlen R /\
  Inv w (sto s) h (gl s) gm /\ stk w (sto s) h vs (loc s) st /\ envrel w (sto s) cl ev.
Proof. intros H. pose proof (conf_slots _ _ _ _ _ _ _ _ _ _ _ _ _ _ _ _ _ H). destruct H. auto 12. Qed.

Variable n : nat.
Hypothesis IH : sim n.

Lemma sub_plain e fv cl s v s1 K sf sz vs C O w h gm st R x t ev acc :
  eval n fv cl e s = Some (RV v, s1) -> cmp K fv sf sz vs e C O -> plain C = true -> okC R x t sz C ->
  conf s cl w h gm st R x t ev sf sz vs ->
  exists w1 h1 gm1 st1 a, ext w (sto s) h w1 (sto s1) h1 /\ conf s1 cl w1 h1 gm1 st1 R x t ev sf sz vs /\ keep vs st st1 /\
    vrel w1 (sto s1) h1 v a /\ J (mkM (O ++ K) acc (st ++ R) ev x t h gm) (mkM (C ++ K) a (st1 ++ R) ev x t h1 gm1).
Proof.
  intros HE HC HP HO HF. pose proof (IH e _ _ _ _ _ HE _ _ _ _ _ _ HC w h gm st R x t ev acc HF HO) as OUT.
  apply out_plain in OUT as (w1 & h1 & gm1 & st1 & a & A1 & A2 & A3 & A4 & A5 & A6); auto.
  exists w1, h1, gm1, st1, a. split; auto. split; [eapply conf_next; eauto|]. auto.
Qed.
Lemma sub_abrt e fv cl s r s1 K sf sz vs C O w h gm st R x t ev acc K' C' :
  eval n fv cl e s = Some (r, s1) -> isV r = false -> cmp K fv sf sz vs e C O -> okC R x t sz C ->
  conf s cl w h gm st R x t ev sf sz vs ->
  out K' R x t ev sf vs C' (mkM (O ++ K) acc (st ++ R) ev x t h gm) w (sto s) h st r s1.
Proof.
  intros HE HV HC HO HF. pose proof (IH e _ _ _ _ _ HE _ _ _ _ _ _ HC w h gm st R x t ev acc HF HO) as OUT.
  eapply out_abrt; [exact HV | exact OUT].
Qed.
Lemma conf_unpush s cl w h gm T st R x t ev sf sz vs : conf s cl w h gm (T ++ st) R x t ev sf (sz + zlen T) vs ->
  0 <= snd sf <= sz -> t <= sz + zlen R -> slots vs st -> conf s cl w h gm st R x t ev sf sz vs.
Proof.
  intros HF Hsf Ht SL. destruct (conf_all _ _ _ _ _ _ _ _ _ _ _ _ _ HF) as (HL & _ & _ & _ & Hx & Hb & HI & HS & HE).
  rewrite zlen_app in HL. split; auto; try lia. rewrite <- (app_nil_r vs) in HS.
  pose proof (stk_unbind _ _ _ _ _ _ _ _ _ HS SL) as H2. apply stk_len in HS. rewrite app_nil_r in HS.
  now rewrite firstn_all2 in H2 by (unfold zlen in *; lia).
Qed.
Lemma args_push es fv cl s lr s1 K sf sz vs C1 O w h gm st R x t ev acc K' C' : es <> [] ->
  evals_rl (eval n fv cl) es s = Some (lr, s1) -> cmp_rl K fv sf sz vs es (Kpush :: C1) O ->
  conf s cl w h gm st R x t ev sf sz vs ->
  match lr with
  | LV vals => exists w1 h1 gm1 avs st1 b, ext w (sto s) h w1 (sto s1) h1 /\ conf s1 cl w1 h1 gm1 st1 R x t ev sf sz vs /\
      keep vs st st1 /\ Forall2 (vrel w1 (sto s1) h1) vals avs /\ zlen avs = zlen es /\
      J (mkM (O ++ K) acc (st ++ R) ev x t h gm) (mkM (C1 ++ K) b ((avs ++ st1) ++ R) ev x t h1 gm1)
  | LX v => out K' R x t ev sf vs C' (mkM (O ++ K) acc (st ++ R) ev x t h gm) w (sto s) h st (RX v) s1
  | LF => out K' R x t ev sf vs C' (mkM (O ++ K) acc (st ++ R) ev x t h gm) w (sto s) h st RF s1
  end.
Proof.
  intros NE HE HC HF. destruct (conf_all _ _ _ _ _ _ _ _ _ _ _ _ _ HF) as (HL & SL & Hsf & Ht & Hx & Hb & HI & HS & HEN).
  assert (LE : 1 <= zlen es). { destruct es; [easy|]. rewrite zlen_cons. pose proof (zlen_ge0 es). lia. }
  destruct (rl_sim _ _ _ _ _ _ _ n IH fv cl K es s lr s1 HE _ _ _ _ _ HC eq_refl w h gm st R x t ev acc HF) as (L & LEN).
  { intros _. apply okC_plain; [lia | exact I]. }
  destruct lr as [vals | v |].
  - destruct L as (w1 & h1 & gm1 & avs & st1 & A1 & A2 & A3 & A4 & A5 & A6). specialize (LEN _ eq_refl). pose proof (F2len A3) as LA.
    destruct avs as [|b q]; [destruct vals; [|easy]; destruct es; easy|].
    exists w1, h1, gm1, (b :: q), st1, b. split; auto. split; [eapply conf_next; eauto|]. split; auto. split; auto.
    split; [unfold zlen; lia|]. eapply J_trans; [exact A6|]. eapply J_step_l; [reflexivity|]. cbn [app accu sp].
    rewrite <- app_assoc. apply J_refl.
  - eapply out_abrt with (K := K) (C := Kpush :: C1); [reflexivity | exact L].
  - eapply out_abrt with (K := K) (C := Kpush :: C1); [reflexivity | exact L].
Qed.

Ltac start := intros fv cl s r s' HE K sf sz vs C O HC w h gm st R x t ev acc HF HO; cbn [Back_Spec.eval] in HE;
  destruct (conf_all _ _ _ _ _ _ _ _ _ _ _ _ _ HF) as (HL & SL & Hsf & Ht & Hx & Hb & HI & HS & HEN); subst sz.
Ltac hb H := match type of H with context [bindV ?a _] => let r := fresh "r1" in let s := fresh "s1" in let E := fresh "E1" in destruct a as [(r & s)|] eqn:E; [|discriminate H]; cbn [bindV] in H end.
Ltac hl H := match type of H with context [bindL ?a _] => let r := fresh "lr" in let s := fresh "s1" in let E := fresh "EL" in destruct a as [(r & s)|] eqn:E; [|discriminate H]; cbn [bindL] in H end.

Lemma fv_index_ge k fv : forall i j, fv_index k i fv = Some j -> i <= j.
Proof.
  induction fv as [|y fv IHf]; cbn; intros i j H; [discriminate|]. destruct (y =? k). { injection H as <-. lia. } apply IHf in H. lia.
Qed.
Lemma var_step k fv cl s v K sf sz vs C O w h gm st R x t ev acc :
  var fv cl (loc s) k = Some v -> cmp K fv sf sz vs (Lvar k) C O -> conf s cl w h gm st R x t ev sf sz vs ->
  exists a, vrel w (sto s) h v a /\ step (mkM (O ++ K) acc (st ++ R) ev x t h gm) = Some (mkM (C ++ K) a (st ++ R) ev x t h gm).
Proof.
  intros HV HC HF. destruct (conf_all _ _ _ _ _ _ _ _ _ _ _ _ _ HF) as (HL & SL & Hsf & Ht & Hx & Hb & HI & HS & HEN). subst sz.
  unfold var in HV. inversion HC; subst.
  - destruct (k <? 0) eqn:E; [|lia]. match goal with H : fv_index _ _ _ = Some _ |- _ => rewrite H in HV; apply fv_index_ge in H; rename H into Hi end.
    destruct HEN as [-> | (l & lbl & ad & A & B & ->)]. { destruct (Z.to_nat i); discriminate. }
    destruct (i_blk _ _ _ _ _ _ _ _ HI _ _ A) as (ad' & m & H1 & H2 & (avs & -> & H4)). rewrite B in H1. injection H1 as <-.
    destruct (nth_error avs (Z.to_nat i)) as [a|] eqn:Ea.
    2: { apply nth_error_None in Ea. rewrite <- (F2len H4) in Ea. apply nth_error_None in Ea. congruence. }
    exists a. split.
    + clear - H4 HV Ea. revert HV Ea. generalize (Z.to_nat i). induction H4; intros [|j] HV Ea; try discriminate; cbn in *; [congruence | eauto].
    + cbn [app step pc env heap field]. rewrite H2. cbn [fields]. destruct (0 <=? i + 1) eqn:E2; [|lia].
      replace (Z.to_nat (i + 1)) with (S (Z.to_nat i)) by lia. cbn [nth_error]. now rewrite Ea.
  - destruct (k <? 0) eqn:E; [lia|]. pose proof (stk_len _ _ _ _ _ _ _ HS) as LV.
    assert (HK : k < zlen vs). { rewrite LV. assert (Z.to_nat k < length (loc s))%nat by (apply nth_error_Some; congruence). unfold zlen. lia. }
    match goal with H : _ < _ -> nth_error vs _ = Some _ |- _ => specialize (H HK); rename H into HN end.
    destruct (stk_nth _ _ _ _ _ _ _ _ _ _ HS HV HN) as (a & A & B & D). exists a. split; auto.
    cbn [app step pc sp]. destruct (zlen st - i <? 0) eqn:E2; [lia|]. rewrite nth_error_app1 by (apply nth_error_Some; congruence).
    now rewrite A.
Qed.
Lemma t_var k : simE (S n) (Lvar k).
Proof.
  start. destruct (var fv cl (loc s) k) as [v|] eqn:EV; [|discriminate]. injection HE as <- <-.
  destruct (var_step _ _ _ _ _ _ _ _ _ _ _ _ _ _ _ _ _ _ _ acc EV HC HF) as (a & A & B).
  eapply out_value; eauto using ext_refl, keep_refl. eapply J_step_l; [exact B | apply J_refl].
Qed.

Lemma goal_over K R x t e st vs w s h gm ls s0 C v : overwrites C = true ->
  land R x t e st vs w s h gm ls s0 (C ++ K) (fun _ => True) -> goal K R x t e st vs w s h gm ls s0 C v.
Proof. intros H HL. unfold Back_Goal.goal. destruct C as [|[] C]; try discriminate; exact HL. Qed.
Lemma const_rel w s h g gm c : Inv w s h g gm -> vrel w s h (sconst p c) (const_val mp c).
Proof. intros HI. destruct c; cbn; auto. apply HI. Qed.
Lemma t_const c : simE (S n) (Lconst c).
Proof.
  start. injection HE as <- <-. inversion HC; subst.
  - exists w, h, gm. split; [apply ext_refl|]. split; auto. apply goal_over; auto. exists st, acc. split; auto. split; [apply keep_refl|]. split; auto. apply J_refl.
  - eapply out_value; eauto using ext_refl, keep_refl, const_rel. eapply J_step_l; [reflexivity | apply J_refl].
Qed.
Lemma set_nth_app1 {A} (l l' : list A) k a : (k < length l)%nat -> set_nth (l ++ l') k a = set_nth l k a ++ l'.
Proof. revert k. induction l as [|y l IHl]; intros [|k] H; cbn in *; try lia; auto. f_equal. apply IHl. lia. Qed.
Lemma t_assign k e : simE (S n) (Lassign k e).
Proof.
  start. hb HE. inversion HC as [ |  | ? ? ? ? ? ? i ? HN HC1 |  |  |  |  |  |  |  |  |  |  |  |  |  |  |  |  |  |  |  |  |  |  |  |  |  |  |  |  |  |  |  |  |  |  |  |  |  |  |  |  |  |  |  |  |  |  |  |  |  |  |  |  |  |  | ]; subst.
  destruct r1 as [v | v |].
  2,3: injection HE as <- <-; eapply sub_abrt; [exact E1 | reflexivity | exact HC1 | apply okC_plain; [auto | exact I] | exact HF].
  destruct ((0 <=? k) && (k <? Z.of_nat (length (loc s1)))) eqn:EB; [|discriminate]. injection HE as <- <-.
  assert (OKA : okC R x t (zlen st) (Kassign (zlen st - i) :: C)) by (apply okC_plain; [lia | exact I]).
  destruct (sub_plain _ _ _ _ _ _ _ _ _ _ _ _ _ _ _ _ _ _ _ _ acc E1 HC1 eq_refl OKA HF) as (w1 & h1 & gm1 & st1 & a & A1 & A2 & A3 & A4 & A5).
  destruct (conf_all _ _ _ _ _ _ _ _ _ _ _ _ _ A2) as (HL1 & SL1 & _ & _ & _ & _ & HI1 & HS1 & _).
  pose proof (stk_len _ _ _ _ _ _ _ HS1) as LV. specialize (HN ltac:(unfold zlen in *; lia)).
  pose proof (proj2 SL1 _ (nth_error_In _ _ HN)) as Bi.
  destruct (stk_assign _ _ _ _ _ _ _ _ _ _ _ HS1 HN A4) as (B1 & B2). rewrite HL1 in *.
  eapply out_value with (w' := w1) (h' := h1) (gm' := gm1); eauto; cbn [loc sto gl]; eauto using keep_trans; try reflexivity.
  eapply J_trans; [exact A5|]. eapply J_step_l; [|apply J_refl]. cbn [app step pc sp accu env extra trap heap glob].
  rewrite app_length. destruct ((0 <=? zlen st - i) && (zlen st - i <? Z.of_nat (length st1 + length R))) eqn:E; [|unfold zlen in *; lia].
  rewrite set_nth_app1 by (unfold zlen in *; lia). reflexivity.
Qed.

Lemma goal_ret K R x t e st vs w s h gm ls s0 C v : rety C = true -> retgoal R x t w s h gm s0 v -> goal K R x t e st vs w s h gm ls s0 C v.
Proof. intros H HG. unfold Back_Goal.goal. now rewrite H. Qed.
Lemma isReturn_rety C : isReturn C = true -> rety C = true.
Proof. destruct C as [|[] C]; cbn; easy. Qed.
Lemma J_upd s0 c a sp0 e x t h gm c' sp' x' : J s0 (mkM c a sp0 e x t h gm) -> c = c' -> sp0 = sp' -> x = x' -> J s0 (mkM c' a sp' e x' t h gm).
Proof. now intros H -> -> ->. Qed.
Lemma t_apply f args : simE (S n) (Lapply f args).
Proof.
  start. destruct args as [|e0 rest]; [discriminate|]. remember (e0 :: rest) as args eqn:EA. assert (NE : args <> []) by (subst; discriminate).
  clear EA e0 rest. hl HE.
  assert (AB : forall lr vals v, lr = LV vals -> lr = LX v -> False) by (intros; subst; discriminate). clear AB.
  inversion HC as [ |  |  |  |  | ? ? ? ? ? ? C1 ? HR HC1 HC2 | ? ? ? ? ? ? C1 ? H5 HC1 HC2 | ? ? ? ? ? ? lbl C1 C2 C3 H5 HR HLb HC1 HC2 |  |  |  |  |  |  |  |  |  |  |  |  |  |  |  |  |  |  |  |  |  |  |  |  |  |  |  |  |  |  |  |  |  |  |  |  |  |  |  |  |  |  |  |  |  |  |  |  |  | ]; subst.
  - (* tail call *)
    pose proof (args_push args fv cl s lr s1 K sf _ vs C1 O w h gm st R x t ev acc K C NE EL HC2 HF) as HA.
    destruct lr as [vals | v |]; [| injection HE as <- <-; exact HA | injection HE as <- <-; exact HA].
    destruct HA as (w1 & h1 & gm1 & avs & st1 & b & A1 & A2 & A3 & A4 & A5 & A6). hb HE.
    pose proof (conf_push _ _ _ _ _ _ _ _ _ _ _ _ _ _ _ _ _ avs A2) as A2'. rewrite A5 in A2'.
    destruct (conf_all _ _ _ _ _ _ _ _ _ _ _ _ _ A2) as (HL1 & SL1 & _ & _ & _ & _ & HI1 & HS1 & _).
    assert (OKA : okC R x t (zlen st + zlen args) (Kappterm (zlen args) (zlen st + zlen args) :: discardDeadCode C))
      by (apply okC_plain; [pose proof (zlen_ge0 args); lia | exact I]).
    destruct r1 as [vf | v |].
    2,3: injection HE as <- <-; eapply out_seq; [exact A6 | exact A1 | exact A3 |];
      eapply out_pop0 with (T := avs) (K := K) (C := []); [reflexivity | exact SL1 | lia | lia |];
      eapply sub_abrt; [exact E1 | reflexivity | exact HC1 | exact OKA | exact A2'].
    destruct (apps F _ vf vals (sto s0) (gl s0)) as [((ra & sa) & ga)|] eqn:EP; [|discriminate]. injection HE as <- <-.
    destruct (sub_plain _ _ _ _ _ _ _ _ _ _ _ _ _ _ _ _ _ _ _ _ b E1 HC1 eq_refl OKA A2') as (w2 & h2 & gm2 & st2 & af & B1 & B2 & B3 & B4 & B5).
    apply keep_pop in B3 as (st3 & -> & B3); [|now apply slots_le].
    rewrite <- A5 in B2. apply conf_unpush in B2; [|lia|lia|eapply keep_slots; eauto].
    destruct (conf_all _ _ _ _ _ _ _ _ _ _ _ _ _ B2) as (HL2 & SL2 & _ & _ & _ & _ & HI2 & HS2 & _).
    destruct (rety_frame R x t _ C (isReturn_rety _ HR) HO) as (FO & HtR).
    assert (NV : vals <> []). { intros ->. inversion A4; subst. rewrite zlen_nil in A5. destruct args; [easy|]. rewrite zlen_cons in A5. pose proof (zlen_ge0 args). lia. }
    destruct (call_sim _ _ _ _ _ _ _ CO n IH vf vals _ _ ra sa ga NV EP w2 h2 gm2 af avs R x t HI2 B4 (vrels_mono _ _ _ _ _ _ _ _ _ B1 A4) FO HtR Hb)
      as (c & w3 & h3 & gm3 & D1 & D2 & D3 & D4).
    assert (JJ : J (mkM (O ++ K) acc (st ++ R) ev x t h gm) (mkM c af (avs ++ R) af (x + zlen avs - 1) t h2 gm2)).
    { eapply J_trans; [exact A6|]. eapply J_trans; [exact B5|]. eapply J_step_l; [|apply J_refl].
      cbn [app step pc accu heap]. rewrite D1. cbn [sp]. rewrite <- A5. rewrite (ztake_app (avs ++ st3) R (zlen st + zlen avs)) by (fold (@zlen value (avs ++ st3)); rewrite zlen_app; lia).
      rewrite <- app_assoc. rewrite (ztake_app avs (st3 ++ R) (zlen avs)) by reflexivity. cbn [env extra trap glob]. do 2 f_equal. lia. }
    exists w3, h3, gm3. cbn [sto loc gl]. split; [eauto using ext_trans|]. split; auto.
    destruct ra as [v | v |]; [ | | destruct D4].
    + apply goal_ret; [now apply isReturn_rety|]. eapply retgoal_J; [exact JJ | exact D4].
    + destruct D4 as (a & D4 & D5). exists st3, a. split; [eapply stk_mono; eauto|]. split; [eauto using keep_trans|]. split; auto.
      eapply J_trans; [exact JJ|]. eapply J_trans; [apply (D5 ev x)|]. apply J_sym. apply J_raise. exact HtR.
  - (* up to four arguments *)
    pose proof (args_push args fv cl s lr s1 K sf _ vs C1 O w h gm st R x t ev acc K C NE EL HC2 HF) as HA.
    destruct lr as [vals | v |]; [| injection HE as <- <-; exact HA | injection HE as <- <-; exact HA].
    destruct HA as (w1 & h1 & gm1 & avs & st1 & b & A1 & A2 & A3 & A4 & A5 & A6). hb HE.
    pose proof (conf_push _ _ _ _ _ _ _ _ _ _ _ _ _ _ _ _ _ avs A2) as A2'. rewrite A5 in A2'.
    destruct (conf_all _ _ _ _ _ _ _ _ _ _ _ _ _ A2) as (HL1 & SL1 & _ & _ & _ & _ & HI1 & HS1 & _).
    assert (OKA : okC R x t (zlen st + zlen args) (Kapply (zlen args) :: C))
      by (apply okC_plain; [pose proof (zlen_ge0 args); lia | exact I]).
    destruct r1 as [vf | v |].
    2,3: injection HE as <- <-; eapply out_seq; [exact A6 | exact A1 | exact A3 |];
      eapply out_pop0 with (T := avs) (K := K) (C := []); [reflexivity | exact SL1 | lia | lia |];
      eapply sub_abrt; [exact E1 | reflexivity | exact HC1 | exact OKA | exact A2'].
    destruct (apps F _ vf vals (sto s0) (gl s0)) as [((ra & sa) & ga)|] eqn:EP; [|discriminate]. injection HE as <- <-.
    destruct (sub_plain _ _ _ _ _ _ _ _ _ _ _ _ _ _ _ _ _ _ _ _ b E1 HC1 eq_refl OKA A2') as (w2 & h2 & gm2 & st2 & af & B1 & B2 & B3 & B4 & B5).
    apply keep_pop in B3 as (st3 & -> & B3); [|now apply slots_le].
    rewrite <- A5 in B2. apply conf_unpush in B2; [|lia|lia|eapply keep_slots; eauto].
    destruct (conf_all _ _ _ _ _ _ _ _ _ _ _ _ _ B2) as (HL2 & SL2 & _ & _ & _ & _ & HI2 & HS2 & _).
    assert (NV : vals <> []). { intros ->. inversion A4; subst. rewrite zlen_nil in A5. destruct args; [easy|]. rewrite zlen_cons in A5. pose proof (zlen_ge0 args). lia. }
    set (R' := [VPc (C ++ K); ev; VInt x] ++ st3 ++ R).
    assert (LR' : zlen R' = 3 + zlen st + zlen R) by (unfold R'; rewrite !zlen_app, HL2, !zlen_cons, zlen_nil; lia). pose proof (zlen_ge0 st).
    destruct (call_sim _ _ _ _ _ _ _ CO n IH vf vals _ _ ra sa ga NV EP w2 h2 gm2 af avs R' 0 t HI2 B4 (vrels_mono _ _ _ _ _ _ _ _ _ B1 A4))
      as (c & w3 & h3 & gm3 & D1 & D2 & D3 & D4); [exists [], (C ++ K), ev, x, (st3 ++ R); auto | lia | lia |].
    assert (JJ : J (mkM (O ++ K) acc (st ++ R) ev x t h gm) (mkM c af (avs ++ R') af (0 + zlen avs - 1) t h2 gm2)).
    { eapply J_trans; [exact A6|]. eapply J_trans; [exact B5|]. eapply J_step_l; [|apply J_refl].
      cbn [app step pc accu heap]. rewrite D1. cbn [sp]. destruct (zlen args <? 5) eqn:E5; [|lia]. rewrite <- A5. rewrite <- app_assoc. rewrite (ztake_app avs (st3 ++ R) (zlen avs)) by reflexivity.
      cbn [env extra trap glob]. do 2 f_equal. }
    destruct ra as [v | v |]; [ | | destruct D4].
    + destruct D4 as (D4 & _). destruct (D4 eq_refl) as (a & D5 & D6).
      eapply out_value with (w' := w3) (h' := h3) (gm' := gm3) (st' := st3) (a := a); cbn [sto loc gl]; eauto using ext_trans, keep_trans, stk_mono.
      eapply J_trans; [exact JJ|]. eapply D6. reflexivity.
    + exists w3, h3, gm3. cbn [sto loc gl]. split; [eauto using ext_trans|]. split; auto.
      destruct D4 as (a & D4 & D5). exists st3, a. split; [eapply stk_mono; eauto|]. split; [eauto using keep_trans|]. split; auto.
      eapply J_trans; [exact JJ|]. eapply J_trans; [apply (D5 ev x)|]. apply J_raise. rewrite app_length. unfold zlen in *. lia.
  - (* five or more *)
    set (T3 := [VPc (target P lbl); ev; VInt x]).
    assert (J0 : J (mkM ((Kpush_retaddr lbl :: C3) ++ K) acc (st ++ R) ev x t h gm) (mkM (C3 ++ K) acc ((T3 ++ st) ++ R) ev x t h gm))
      by (eapply J_step_l; [reflexivity | apply J_refl]).
    pose proof (conf_push _ _ _ _ _ _ _ _ _ _ _ _ _ _ _ _ _ T3 HF) as HF3. change (zlen T3) with 3 in HF3.
    pose proof (args_push args fv cl s lr s1 K sf _ vs C2 C3 w h gm (T3 ++ st) R x t ev acc K C NE EL HC2 HF3) as HA.
    destruct lr as [vals | v |].
    2,3: injection HE as <- <-; eapply out_J; [exact J0|]; eapply out_pop0 with (T := T3) (K := K) (C := C); [reflexivity | exact SL | lia | lia | exact HA].
    destruct HA as (w1 & h1 & gm1 & avs & st1 & b & A1 & A2 & A3 & A4 & A5 & A6). hb HE.
    apply keep_pop in A3 as (st1' & -> & A3); [|now apply slots_le].
    pose proof (conf_push _ _ _ _ _ _ _ _ _ _ _ _ _ _ _ _ _ avs A2) as A2'. rewrite A5 in A2'.
    change 3 with (zlen T3) in A2. apply conf_unpush in A2; [|lia|lia|eapply keep_slots; eauto].
    destruct (conf_all _ _ _ _ _ _ _ _ _ _ _ _ _ A2) as (HL1 & SL1 & _ & _ & _ & _ & HI1 & HS1 & _).
    assert (OKA : okC R x t (zlen st + 3 + zlen args) (Kapply (zlen args) :: C1))
      by (apply okC_plain; [pose proof (zlen_ge0 args); lia | exact I]).
    destruct r1 as [vf | v |].
    2,3: injection HE as <- <-; eapply out_J; [exact J0|]; eapply out_seq; [exact A6 | exact A1 | exact A3 |];
      eapply out_pop0 with (T := avs ++ T3) (K := K) (C := []); [reflexivity | exact SL1 | lia | lia |]; rewrite <- (app_assoc avs T3 st1');
      eapply sub_abrt; [exact E1 | reflexivity | exact HC1 | exact OKA | exact A2'].
    destruct (apps F _ vf vals (sto s0) (gl s0)) as [((ra & sa) & ga)|] eqn:EP; [|discriminate]. injection HE as <- <-.
    destruct (sub_plain _ _ _ _ _ _ _ _ _ _ _ _ _ _ _ _ _ _ _ _ b E1 HC1 eq_refl OKA A2') as (w2 & h2 & gm2 & st2 & af & B1 & B2 & B3 & B4 & B5).
    rewrite (app_assoc avs T3 st1') in B3. apply keep_pop in B3 as (st3 & -> & B3); [|now apply slots_le].
    replace (zlen st + 3 + zlen args) with (zlen st + zlen (avs ++ T3)) in B2 by (rewrite zlen_app, A5; change (zlen T3) with 3; lia).
    apply conf_unpush in B2; [|lia|lia|eapply keep_slots; eauto].
    destruct (conf_all _ _ _ _ _ _ _ _ _ _ _ _ _ B2) as (HL2 & SL2 & _ & _ & _ & _ & HI2 & HS2 & _).
    assert (NV : vals <> []). { intros ->. inversion A4; subst. rewrite zlen_nil in A5. lia. }
    set (R' := T3 ++ st3 ++ R).
    assert (LR' : zlen R' = 3 + zlen st + zlen R) by (unfold R'; rewrite !zlen_app, HL2; change (zlen T3) with 3; lia). pose proof (zlen_ge0 st).
    destruct (call_sim _ _ _ _ _ _ _ CO n IH vf vals _ _ ra sa ga NV EP w2 h2 gm2 af avs R' 0 t HI2 B4 (vrels_mono _ _ _ _ _ _ _ _ _ B1 A4))
      as (c & w3 & h3 & gm3 & D1 & D2 & D3 & D4); [exists [], (target P lbl), ev, x, (st3 ++ R); auto | lia | lia |].
    assert (JJ : J (mkM ((Kpush_retaddr lbl :: C3) ++ K) acc (st ++ R) ev x t h gm) (mkM c af (avs ++ R') af (0 + zlen avs - 1) t h2 gm2)).
    { eapply J_trans; [exact J0|]. eapply J_trans; [exact A6|]. eapply J_trans; [exact B5|]. eapply J_step_l; [|apply J_refl].
      cbn [app step pc accu heap]. rewrite D1. cbn [sp]. destruct (zlen args <? 5) eqn:E5; [lia|]. rewrite <- A5. unfold R'. rewrite <- !app_assoc.
      cbn [env extra trap glob]. do 2 f_equal. }
    destruct ra as [v | v |]; [ | | destruct D4].
    + destruct D4 as (D4 & _). destruct (D4 eq_refl) as (a & D5 & D6).
      eapply out_value with (w' := w3) (h' := h3) (gm' := gm3) (st' := st3) (a := a); cbn [sto loc gl]; eauto using ext_trans, keep_trans, stk_mono.
      eapply J_trans; [exact JJ|]. eapply J_trans; [eapply D6; reflexivity|]. eapply J_lab; eauto.
    + exists w3, h3, gm3. cbn [sto loc gl]. split; [eauto using ext_trans|]. split; auto.
      destruct D4 as (a & D4 & D5). exists st3, a. split; [eapply stk_mono; eauto|]. split; [eauto using keep_trans|]. split; auto.
      eapply J_trans; [exact JJ|]. eapply J_trans; [apply (D5 ev x)|]. apply J_raise. rewrite app_length. unfold zlen in *. lia.
Qed.
End Terms.
