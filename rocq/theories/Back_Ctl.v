(** The simulation for control. *)
From Verif Require Import Base Opcodes Back_Model Back_Spec Back_Rel.
From Verif Require Import Back_Sim Back_Goal Back_Tree Back_Main Back_Lists Back_Terms Back_Defs Back_Prims Back_Ok Back_Head.

Section Ctl.
Variable mp : prims.
Variable p : sprims.
Variable P : list instr.
Variable base : Z.
Variable F : Z -> option fundef.
Variable shc : nat -> option lam.
Variable nf : lam -> Prop.
Notation ar := (prim_arity mp).
Notation eval := (eval p ar F shc).
Notation step := (step mp P base).
Notation J := (J mp P base).
Notation vrel := (vrel F).
Notation Inv := (Inv F mp p).
Notation stk := (stk F).
Notation out := (out mp p P base F).
Notation goal := (goal mp P base F).
Notation abrt := (abrt mp P base F).
Notation land := (land mp P base F).
Notation retgoal := (retgoal mp P base F).
Notation conf := (conf mp p base F).
Notation simE := (simE mp p P base F shc nf).
Notation sim := (sim mp p P base F shc nf).
Notation rety_frame := (rety_frame base F).
Notation addPop_ok := (addPop_ok F).
Notation slots_le := (slots_le F).
Notation okC_same := (okC_same P).
Notation okC_mbr := (okC_mbr P).
Notation cmp := (fun K fv => cmp P K fv shc nf).
Notation cmp_rl := (fun K fv => cmp_rl P K fv shc nf).
Notation cmp_init := (fun K fv => cmp_init P K fv shc nf).
Notation cmp_args := (fun K fv => cmp_args P K fv shc nf).
Notation conf_all := (conf_all mp p base F).
Notation conf_next := (conf_next mp p base F).
Notation conf_push := (conf_push mp p base F).
Notation conf_bind := (conf_bind mp p base F).
Notation conf_dp := (conf_dp mp p base F).
Notation rl_sim := (rl_sim mp p P base F shc nf).
Notation let_sim := (let_sim mp p P base F shc nf).
Variable n : nat.
Hypothesis IH : sim n.
Hypothesis CO : code_ok P F shc nf.
Notation sub_abrt := (sub_abrt mp p P base F shc nf n IH).
Notation sub_plain := (sub_plain mp p P base F shc nf n IH).

Ltac start := intros fv cl s r s' HE K sf sz vs C O HC w h gm st R x t ev acc HF HO; cbn [Back_Spec.eval] in HE;
  destruct (conf_all _ _ _ _ _ _ _ _ _ _ _ _ _ HF) as (HL & SL & Hsf & Ht & Hx & Hb & HI & HS & HEN); subst sz.

Notation okc_cmp := (fun K fv => okc_cmp P K fv shc nf F).
Notation head_ok := (head_ok mp p P base F shc nf CO).
Notation cmp_test2 := (fun K fv => cmp_test2 P K fv shc nf).
Ltac hb H := match type of H with context [bindV ?a _] => let r := fresh "r1" in let s := fresh "s1" in let E := fresh "E1" in destruct a as [(r & s)|] eqn:E; [|discriminate H]; cbn [bindV] in H end.

Lemma conf_land s cl w h gm st R x t ev sf sz vs s1 w1 h1 gm1 st1 : conf s cl w h gm st R x t ev sf sz vs ->
  ext w (sto s) h w1 (sto s1) h1 -> Inv w1 (sto s1) h1 (gl s1) gm1 -> stk w1 (sto s1) h1 vs (loc s1) st1 -> keep vs st st1 ->
  conf s1 cl w1 h1 gm1 st1 R x t ev sf sz vs /\ sz = zlen st1.
Proof. intros HF A B C D. split; [eapply conf_next; eauto|]. destruct D as (L & _). pose proof (c_len _ _ _ _ _ _ _ _ _ _ _ _ _ _ _ _ _ HF). lia. Qed.
Lemma mbr_out K R x t ev sf vs C br C1 D s0 w s h st r s' : mbr P K C br C1 -> okC R x t (zlen st) C -> 0 <= x ->
  out K R x t ev sf vs (br :: D) s0 w s h st r s' -> out K R x t ev sf vs C s0 w s h st r s'.
Proof. intros HM HO Hx. apply out_goal. intros. eapply goal_mbr; eauto. Qed.
Lemma mbr_out_l K R x t ev sf vs C br C1 s0 w s h st r s' : mbr P K C br C1 -> okC R x t (zlen st) C -> 0 <= x ->
  out K R x t ev sf vs C1 s0 w s h st r s' -> out K R x t ev sf vs C s0 w s h st r s'.
Proof. intros HM HO Hx. apply out_goal. intros. eapply goal_mbr_l; eauto. Qed.
Lemma out_sf K R x t ev sf sf' vs C s0 w s h st r s' : r <> RF ->
  out K R x t ev sf vs C s0 w s h st r s' -> out K R x t ev sf' vs C s0 w s h st r s'.
Proof. intros HN (w' & h' & gm' & A & B & D). exists w', h', gm'. split; auto. split; auto. destruct r; auto. easy. Qed.

(** failure *)
Lemma sfail_eval m fv cl s r s' : eval m fv cl Lstaticfail s = Some (r, s') -> r = RF /\ s' = s.
Proof. destruct m; cbn; [discriminate|]. now intros [= <- <-]. Qed.
Lemma fail_out K R x t ev sf vs C s w h st w1 h1 gm1 st1 s1 s0 a : zlen st = snd sf ->
  ext w (sto s) h w1 (sto s1) h1 -> Inv w1 (sto s1) h1 (gl s1) gm1 -> stk w1 (sto s1) h1 vs (loc s1) st1 -> keep vs st st1 ->
  J s0 (mkM (target P (fst sf)) a (st1 ++ R) ev x t h1 gm1) ->
  out K R x t ev sf vs C s0 w (sto s) h st RF s1.
Proof.
  intros Hz A B D E HJ. exists w1, h1, gm1. split; auto. split; auto. exists st1, a. split; auto. split; auto.
  replace (zlen st - snd sf) with 0 by lia. exact HJ.
Qed.
Lemma t_sfail : simE (S n) Lstaticfail.
Proof.
  start. injection HE as <- <-. inversion HC as [ |  |  |  |  |  |  |  |  |  |  |  |  |  |  |  |  |  |  |  |  |  |  |  |  |  |  |  |  |  |  | ? ? ? ? D |  |  |  |  |  |  |  |  |  |  |  |  |  |  |  |  |  |  |  |  |  |  |  |  |  | ]; subst.
  exists w, h, gm. split; [apply ext_refl|]. split; auto. exists st, acc. split; auto. split; [apply keep_refl|].
  destruct (zlen st - snd sf =? 0) eqn:E0.
  - assert (zlen st - snd sf = 0) as -> by lia. rewrite addPop_0. cbn [app Z.to_nat skipn]. eapply J_step_l; [reflexivity|]. apply J_refl.
  - assert (AP : addPop (zlen st - snd sf) (Kbranch (fst sf) :: D) = Kpop (zlen st - snd sf) :: Kbranch (fst sf) :: D) by (unfold addPop; cbn [addPop_]; now rewrite E0).
    rewrite AP. cbn [app]. eapply J_step_l.
    { cbn [step pc sp].
      assert (ZT : ztake (zlen st - snd sf) (st ++ R) = Some (firstn (Z.to_nat (zlen st - snd sf)) st, skipn (Z.to_nat (zlen st - snd sf)) st ++ R)).
      { rewrite <- (ztake_app (firstn (Z.to_nat (zlen st - snd sf)) st) (skipn (Z.to_nat (zlen st - snd sf)) st ++ R) (zlen st - snd sf)) by (rewrite firstn_length; unfold zlen in *; lia).
        now rewrite app_assoc, firstn_skipn. }
      rewrite ZT. reflexivity. }
    eapply J_step_l; [reflexivity|]. apply J_refl.
Qed.
Lemma t_unspec : simE (S n) Lunspec.
Proof.
  start. injection HE as <- <-. inversion HC; subst. eapply out_value; eauto using ext_refl, keep_refl; [exact I | apply J_refl].
Qed.

(** conditions *)
Lemma test2_sim c t0 f fv cl s r1 s1 r s' K sf sz vs C O w h gm st R x t ev acc : cmp_test2 K fv sf sz vs c t0 f C O ->
  eval n fv cl c s = Some (r1, s1) ->
  match r1 with RV v => exists tg, stag (sto s1) v = Some tg /\ eval n fv cl (if tg =? 0 then f else t0) s1 = Some (r, s') | _ => r = r1 /\ s' = s1 end ->
  conf s cl w h gm st R x t ev sf sz vs -> okC R x t sz C ->
  out K R x t ev sf vs C (mkM (O ++ K) acc (st ++ R) ev x t h gm) w (sto s) h st r s'.
Proof.
  intros HT E1 HR HF HO.
  destruct (conf_all _ _ _ _ _ _ _ _ _ _ _ _ _ HF) as (HL & SL & Hsf & Ht & Hx & Hb & HI & HS & HEN). subst sz.
  inversion HT as [? ? ? ? ? ? C1 ? Hsz HC1 HC2 | ? ? ? ? ? ? C1 ? Hsz HC1 HC2 | ? ? ? ? ? ? ? br C1 Cn l C2 Cs ? HM HC1 HLb HC2 HC3]; subst.
  - assert (OKA : okC R x t (zlen st) (Kbranchif (fst sf) :: C1)) by (apply okC_plain; [lia | exact I]).
    destruct r1 as [v | v |].
    2,3: destruct HR as (-> & ->); eapply sub_abrt; [exact E1 | reflexivity | exact HC2 | exact OKA | exact HF].
    pose proof (IH c _ _ _ _ _ E1 _ _ _ _ _ _ HC2 w h gm st R x t ev acc HF OKA) as (w1 & h1 & gm1 & B1 & B2 & B3).
    destruct HR as (tg & T1 & T2). unfold Back_Goal.goal in B3. cbn [rety] in B3. destruct (B3 _ T1) as (st1 & a & D1 & D2 & _ & D3).
    destruct (conf_land _ _ _ _ _ _ _ _ _ _ _ _ _ _ _ _ _ _ HF B1 B2 D1 D2) as (HF1 & LZ).
    destruct (tg =? 0).
    + eapply out_seq; [exact D3 | exact B1 | exact D2|]. exact (IH f _ _ _ _ _ T2 _ _ _ _ _ _ HC1 _ _ _ _ _ _ _ _ _ HF1 HO).
    + apply sfail_eval in T2 as (-> & ->). eapply fail_out; eauto.
  - assert (OKA : okC R x t (zlen st) (Kbranchifnot (fst sf) :: C1)) by (apply okC_plain; [lia | exact I]).
    destruct r1 as [v | v |].
    2,3: destruct HR as (-> & ->); eapply sub_abrt; [exact E1 | reflexivity | exact HC2 | exact OKA | exact HF].
    pose proof (IH c _ _ _ _ _ E1 _ _ _ _ _ _ HC2 w h gm st R x t ev acc HF OKA) as (w1 & h1 & gm1 & B1 & B2 & B3).
    destruct HR as (tg & T1 & T2). unfold Back_Goal.goal in B3. cbn [rety] in B3. destruct (B3 _ T1) as (st1 & a & D1 & D2 & _ & D3).
    destruct (conf_land _ _ _ _ _ _ _ _ _ _ _ _ _ _ _ _ _ _ HF B1 B2 D1 D2) as (HF1 & LZ).
    destruct (tg =? 0).
    + apply sfail_eval in T2 as (-> & ->). eapply fail_out; eauto.
    + eapply out_seq; [exact D3 | exact B1 | exact D2|]. exact (IH t0 _ _ _ _ _ T2 _ _ _ _ _ _ HC1 _ _ _ _ _ _ _ _ _ HF1 HO).
  - assert (OKA : okC R x t (zlen st) (Kbranchifnot l :: Cs)) by (apply okC_plain; [lia | exact I]).
    destruct r1 as [v | v |].
    2,3: destruct HR as (-> & ->); eapply sub_abrt; [exact E1 | reflexivity | exact HC3 | exact OKA | exact HF].
    pose proof (IH c _ _ _ _ _ E1 _ _ _ _ _ _ HC3 w h gm st R x t ev acc HF OKA) as (w1 & h1 & gm1 & B1 & B2 & B3).
    destruct HR as (tg & T1 & T2). unfold Back_Goal.goal in B3. cbn [rety] in B3. destruct (B3 _ T1) as (st1 & a & D1 & D2 & _ & D3).
    destruct (conf_land _ _ _ _ _ _ _ _ _ _ _ _ _ _ _ _ _ _ HF B1 B2 D1 D2) as (HF1 & LZ).
    destruct (okC_mbr _ _ _ _ _ _ _ _ HM (zlen_ge0 st) HO) as (O1 & O2). pose proof HO as HO'. rewrite LZ in HO'.
    destruct (tg =? 0).
    + eapply out_seq; [eapply J_trans; [exact D3 | apply (J_lab mp P base K x t ev h1 gm1 _ _ _ a (st1 ++ R) HLb)] | exact B1 | exact D2|].
      eapply mbr_out_l; [exact HM | exact HO' | exact Hx|].
      exact (IH f _ _ _ _ _ T2 _ _ _ _ _ _ HC1 _ _ _ _ _ _ _ _ _ HF1 O1).
    + eapply out_seq; [exact D3 | exact B1 | exact D2|]. eapply mbr_out; [exact HM | exact HO' | exact Hx|].
      exact (IH t0 _ _ _ _ _ T2 _ _ _ _ _ _ HC2 _ _ _ _ _ _ _ _ _ HF1 (O2 _)).
Qed.
Lemma t_if c t0 f : simE (S n) (Lif c t0 f).
Proof.
  start. hb HE. inversion HC as [ |  |  |  |  |  |  |  |  |  |  |  |  |  |  |  |  |  |  |  |  |  |  |  |  |  |  |  |  |  |  |  |  | ? ? ? ? ? ? ? ? HT |  |  |  |  |  |  |  |  |  |  |  |  |  |  |  |  |  |  |  |  |  |  |  | ]; subst.
  eapply test2_sim; [exact HT | exact E1 | | exact HF | exact HO].
  destruct r1 as [v | v |]; [|now injection HE as <- <-|now injection HE as <- <-].
  destruct (struth v) as [b|] eqn:EB; [|discriminate]. destruct (struth_tag (sto s1) _ _ EB) as (tg & T1 & ->). exists tg. split; auto.
  destruct (tg =? 0); exact HE.
Qed.

(** sequences and loops *)
Lemma t_seq a b : simE (S n) (Lseq a b).
Proof.
  start. hb HE. inversion HC as [ |  |  |  |  |  |  |  |  |  |  |  |  |  |  |  |  |  |  |  |  |  |  |  |  |  |  |  |  |  |  |  |  |  | ? ? ? ? ? ? C1 ? HC1 HC2 |  |  |  |  |  |  |  |  |  |  |  |  |  |  |  |  |  |  |  |  |  |  | ]; subst.
  assert (OK1 : okC R x t (zlen st) C1) by (eapply okc_cmp; eauto).
  pose proof (IH a _ _ _ _ _ E1 _ _ _ _ _ _ HC2 w h gm st R x t ev acc HF OK1) as OUT.
  destruct r1 as [v | v |]; [| injection HE as <- <-; eapply out_abrt; [reflexivity | exact OUT] ..].
  destruct OUT as (w1 & h1 & gm1 & B1 & B2 & B3). destruct (nl C1) eqn:EN.
  - destruct (head_ok n b _ _ _ _ _ HE _ _ _ _ _ _ HC1 EN (zlen_ge0 st)) as (-> & -> & (_ & _ & HP)).
    exists w1, h1, gm1. split; auto. split; auto. eapply goal_any; [|eapply HP; eauto]. auto.
  - apply goal_land in B3 as (st1 & a1 & D1 & D2 & _ & D3); auto.
    destruct (conf_land _ _ _ _ _ _ _ _ _ _ _ _ _ _ _ _ _ _ HF B1 B2 D1 D2) as (HF1 & LZ).
    eapply out_seq; [exact D3 | exact B1 | exact D2|]. exact (IH b _ _ _ _ _ HE _ _ _ _ _ _ HC1 _ _ _ _ _ _ _ _ _ HF1 HO).
Qed.
Lemma t_while c b : simE (S n) (Lwhile c b).
Proof.
  start. hb HE. inversion HC as [ |  |  |  |  |  |  |  |  |  |  |  |  |  |  |  |  |  |  |  |  |  |  |  |  |  |  |  |  |  |  |  |  |  |  | ? ? ? ? ? ? l2 Cc l1 C1 Cb HC1 HLb HC2 HTg |  |  |  |  |  |  |  |  |  |  |  |  |  |  |  |  |  |  |  |  |  | ]; subst.
  assert (OKA : okC R x t (zlen st) (Kbranchif l2 :: Kquote constUnit :: C)) by (apply okC_plain; [lia | exact I]).
  assert (OK1 : okC R x t (zlen st) Cc) by (eapply okc_cmp; eauto).
  assert (OK2 : okC R x t (zlen st) C1) by (eapply okC_lab; eauto using zlen_ge0).
  assert (JC : forall a sp0 h0 gm0, J (mkM ((Kbranch l1 :: Klabel l2 :: Kcheck_signals :: Cb) ++ K) a sp0 ev x t h0 gm0) (mkM (Cc ++ K) a sp0 ev x t h0 gm0)).
  { intros. eapply J_step_l; [reflexivity|]. apply (J_lab mp P base K x t ev h0 gm0 _ _ _ a sp0 HLb). }
  eapply out_J; [apply JC|].
  pose proof (IH c _ _ _ _ _ E1 _ _ _ _ _ _ HC1 w h gm st R x t ev acc HF OKA) as OUT.
  destruct r1 as [v | v |]; [| injection HE as <- <-; eapply out_abrt; [reflexivity | exact OUT] ..].
  destruct OUT as (w1 & h1 & gm1 & B1 & B2 & B3). destruct (struth v) as [bv|] eqn:EB; [|discriminate].
  destruct (struth_tag (sto s1) _ _ EB) as (tg & T1 & ->). unfold Back_Goal.goal in B3. cbn [rety] in B3. destruct (B3 _ T1) as (st1 & a & D1 & D2 & _ & D3).
  destruct (conf_land _ _ _ _ _ _ _ _ _ _ _ _ _ _ _ _ _ _ HF B1 B2 D1 D2) as (HF1 & LZ).
  destruct (tg =? 0); cbn [negb] in HE.
  - injection HE as <- <-. eapply out_value with (a := unit_val); eauto; [reflexivity|].
    eapply J_trans; [exact D3|]. eapply J_step_l; [reflexivity|]. apply J_refl.
  - rewrite HTg in D3. eapply out_seq; [eapply J_trans; [exact D3|]; eapply J_step_l; [reflexivity|]; apply J_refl | exact B1 | exact D2|].
    hb HE. pose proof (IH b _ _ _ _ _ E0 _ _ _ _ _ _ HC2 w1 h1 gm1 st1 R x t ev a HF1 OK2) as OUT.
    destruct r1 as [v2 | v2 |]; [| injection HE as <- <-; eapply out_abrt; [reflexivity | exact OUT] ..].
    destruct OUT as (w2 & h2 & gm2 & B4 & B5 & B6). destruct (nl C1) eqn:EN.
    { exfalso. destruct (head_ok n c _ _ _ _ _ E1 _ _ _ _ _ _ HC1 (lab_nl _ _ _ _ _ HLb EN) (zlen_ge0 st)) as (E & _). injection E as ->. discriminate EB. }
    apply goal_land in B6 as (st2 & a2 & D4 & D5 & _ & D6); auto.
    destruct (conf_land _ _ _ _ _ _ _ _ _ _ _ _ _ _ _ _ _ _ HF1 B4 B5 D4 D5) as (HF2 & LZ2).
    eapply out_seq; [|exact B4|exact D5|exact (IH (Lwhile c b) _ _ _ _ _ HE _ _ _ _ _ _ HC w2 h2 gm2 st2 R x t ev a2 HF2 HO)].
    eapply J_trans; [exact D6|]. eapply J_trans; [apply (J_lab mp P base K x t ev h2 gm2 _ _ _ a2 (st2 ++ R) HLb)|]. apply J_sym, JC.
Qed.

(** andalso, orelse *)
Lemma strict_step l nt C K a sp0 e x t h gm tg : tag_val h a = Some tg ->
  step (mkM ((if nt : bool then Kstrictbranchifnot l else Kstrictbranchif l) :: C ++ K) a sp0 e x t h gm) =
  Some (mkM (if Bool.eqb nt (tg =? 0) then target P l else C ++ K) a sp0 e x t h gm).
Proof. intros H. destruct nt; cbn [step pc accu heap]; unfold truth; rewrite H; destruct (tg =? 0); reflexivity. Qed.
(** both: the second operand is evaluated when [tg =? 0] is not [nt] *)
Lemma logic_sim nt a b fv cl s r1 s1 r s' K sf sz vs C O w h gm st R x t ev acc :
  eval n fv cl a s = Some (r1, s1) ->
  match r1 with
  | RV v => exists tg, stag (sto s1) v = Some tg /\ (if Bool.eqb nt (tg =? 0) then r = RV v /\ s' = s1 else eval n fv cl b s1 = Some (r, s'))
  | _ => r = r1 /\ s' = s1 end ->
  conf s cl w h gm st R x t ev sf sz vs -> okC R x t sz C ->
  forall l C1, cmp K fv sf sz vs a ((if nt : bool then Kstrictbranchifnot l else Kstrictbranchif l) :: C1) O ->
  (forall a sp0 h0 gm0, J (mkM (target P l) a sp0 ev x t h0 gm0) (mkM (C ++ K) a sp0 ev x t h0 gm0)) ->
  (forall w h gm st acc, conf s1 cl w h gm st R x t ev sf sz vs -> eval n fv cl b s1 = Some (r, s') ->
     out K R x t ev sf vs C (mkM (C1 ++ K) acc (st ++ R) ev x t h gm) w (sto s1) h st r s') ->
  out K R x t ev sf vs C (mkM (O ++ K) acc (st ++ R) ev x t h gm) w (sto s) h st r s'.
Proof.
  intros E1 HR HF HO l C1 HC HJ HB.
  destruct (conf_all _ _ _ _ _ _ _ _ _ _ _ _ _ HF) as (HL & SL & Hsf & Ht & Hx & Hb & HI & HS & HEN). subst sz.
  assert (OKA : okC R x t (zlen st) ((if nt : bool then Kstrictbranchifnot l else Kstrictbranchif l) :: C1)) by (apply okC_plain; [lia | destruct nt; exact I]).
  destruct r1 as [v | v |].
  2,3: destruct HR as (-> & ->); eapply sub_abrt; [exact E1 | reflexivity | exact HC | exact OKA | exact HF].
  assert (PL : plain ((if nt : bool then Kstrictbranchifnot l else Kstrictbranchif l) :: C1) = true) by (destruct nt; reflexivity).
  destruct (sub_plain _ _ _ _ _ _ _ _ _ _ _ _ _ _ _ _ _ _ _ _ acc E1 HC PL OKA HF) as (w1 & h1 & gm1 & st1 & a1 & A1 & A2 & A3 & A4 & A5).
  destruct (conf_all _ _ _ _ _ _ _ _ _ _ _ _ _ A2) as (HL1 & SL1 & _ & _ & _ & _ & HI1 & HS1 & _).
  destruct HR as (tg & T1 & T2). assert (T3 : tag_val h1 a1 = Some tg) by (eapply stag_tag; eauto).
  pose proof (strict_step l nt C1 K a1 (st1 ++ R) ev x t h1 gm1 tg T3) as ST.
  destruct (Bool.eqb nt (tg =? 0)).
  - destruct T2 as (-> & ->). eapply out_value; eauto. eapply J_trans; [exact A5|]. eapply J_step_l; [exact ST | apply HJ].
  - eapply out_seq; [eapply J_trans; [exact A5|]; eapply J_step_l; [exact ST | apply J_refl] | exact A1 | exact A3|]. now apply HB.
Qed.
Lemma t_and a b : simE (S n) (Landalso a b).
Proof.
  start. hb HE.
  assert (HR : match r1 with
    | RV v => exists tg, stag (sto s1) v = Some tg /\ (if Bool.eqb true (tg =? 0) then r = RV v /\ s' = s1 else eval n fv cl b s1 = Some (r, s'))
    | _ => r = r1 /\ s' = s1 end).
  { destruct r1 as [v | v |]; [|now injection HE as <- <-|now injection HE as <- <-].
    destruct (struth v) as [bv|] eqn:EB; [|discriminate]. destruct (struth_tag (sto s1) _ _ EB) as (tg & T1 & ->). exists tg. split; auto.
    destruct (tg =? 0); cbn in HE |- *; auto. now injection HE as <- <-. }
  clear HE.
  inversion HC as [ |  |  |  |  |  |  |  |  |  |  |  |  |  |  |  |  |  |  |  |  |  |  |  |  |  |  |  |  |  |  |  |  |  |  |  | ? ? ? ? ? ? l C1 ? HR1 HG HC1 HC2 | ? ? ? ? ? l k ? C1 ? HT HC1 HC2 | ? ? ? ? ? l ? C1 ? HC1 HC2 | ? ? ? ? ? l ? l1 C1 C2 ? HLb HC1 HC2 | ? ? ? ? ? ? l C1 ? HT HC1 HC2 |  |  |  |  |  |  |  |  |  |  |  |  |  |  |  |  | ]; subst.
  - eapply (logic_sim true a b); eauto.
    + intros. apply J_sym. now apply J_goes.
    + intros. eapply (IH b); eauto.
  - eapply (logic_sim true a b); eauto.
    + intros. rewrite HT. apply J_sym. eapply J_step_l; [reflexivity|]. apply J_refl.
    + intros. eapply (IH b); eauto.
  - assert (OKA : okC R x t (zlen st) (Kbranchifnot l :: C1)) by (apply okC_plain; [lia | exact I]).
    pose proof (IH a _ _ _ _ _ E1 _ _ _ _ _ _ HC2 w h gm st R x t ev acc HF OKA) as OUT.
    destruct r1 as [v | v |]; [| destruct HR as (-> & ->); eapply out_abrt; [reflexivity | exact OUT] ..].
    destruct OUT as (w1 & h1 & gm1 & B1 & B2 & B3). destruct HR as (tg & T1 & T2). unfold Back_Goal.goal in B3. cbn [rety] in B3.
    pose proof (B3 _ T1) as B4. destruct (tg =? 0) eqn:E0; cbn in T2.
    + destruct T2 as (-> & ->). exists w1, h1, gm1. split; auto. split; auto. unfold Back_Goal.goal. cbn [rety]. intros tg' T'. replace tg' with tg by congruence. now rewrite E0.
    + destruct B4 as (st1 & a1 & D1 & D2 & _ & D3). destruct (conf_land _ _ _ _ _ _ _ _ _ _ _ _ _ _ _ _ _ _ HF B1 B2 D1 D2) as (HF1 & LZ).
      eapply out_seq; [exact D3 | exact B1 | exact D2|]. eapply (IH b); eauto.
  - assert (OKA : okC R x t (zlen st) (Kbranchifnot l1 :: C2)) by (apply okC_plain; [lia | exact I]).
    pose proof (IH a _ _ _ _ _ E1 _ _ _ _ _ _ HC2 w h gm st R x t ev acc HF OKA) as OUT.
    destruct r1 as [v | v |]; [| destruct HR as (-> & ->); eapply out_abrt; [reflexivity | exact OUT] ..].
    destruct OUT as (w1 & h1 & gm1 & B1 & B2 & B3). destruct HR as (tg & T1 & T2). unfold Back_Goal.goal in B3. cbn [rety] in B3.
    pose proof (B3 _ T1) as B4. destruct (tg =? 0) eqn:E0; cbn in T2.
    + destruct T2 as (-> & ->). exists w1, h1, gm1. split; auto. split; auto. unfold Back_Goal.goal. cbn [rety]. intros tg' T'. replace tg' with tg by congruence. rewrite E0.
      destruct B4 as (st1 & a1 & D1 & D2 & _ & D3). exists st1, a1. split; auto. split; auto. split; auto.
      eapply J_trans; [exact D3|]. apply (J_lab mp P base K x t ev h1 gm1 _ _ _ a1 (st1 ++ R) HLb).
    + destruct B4 as (st1 & a1 & D1 & D2 & _ & D3). destruct (conf_land _ _ _ _ _ _ _ _ _ _ _ _ _ _ _ _ _ _ HF B1 B2 D1 D2) as (HF1 & LZ).
      eapply out_seq; [exact D3 | exact B1 | exact D2|].
      assert (OKB : okC R x t (zlen st) (Kbranchif l :: C1)) by (apply okC_plain; [lia | exact I]).
      eapply out_goal; [|eapply (IH b); [exact T2 | exact HC1 | exact HF1 | exact OKB]].
      intros v2 w2 h2 gm2 -> HI2 G. unfold Back_Goal.goal in G |- *. cbn [rety] in *. intros tg2 T3. specialize (G _ T3). destruct (tg2 =? 0); auto.
      destruct G as (st2 & a2 & G1 & G2 & _ & G3). exists st2, a2. split; auto. split; auto. split; auto. eapply J_trans; [exact G3|].
      apply (J_lab mp P base K x t ev h2 gm2 _ _ _ a2 (st2 ++ R) HLb).
  - eapply (logic_sim true a b); eauto.
    + intros. rewrite HT. apply J_refl.
    + intros w1 h1 gm1 st1 acc1 HF1 E2.
      destruct (conf_all _ _ _ _ _ _ _ _ _ _ _ _ _ HF1) as (HL1 & _). assert (HO' : okC R x t (zlen st1) C) by now rewrite HL1.
      eapply out_goal; [|eapply (IH b); [exact E2 | exact HC1 | exact HF1 | apply okC_label; auto using zlen_ge0]].
      intros v2 w2 h2 gm2 -> HI2 G. eapply goal_label; eauto.
Qed.
Lemma t_or a b : simE (S n) (Lorelse a b).
Proof.
  start. hb HE.
  assert (HR : match r1 with
    | RV v => exists tg, stag (sto s1) v = Some tg /\ (if Bool.eqb false (tg =? 0) then r = RV v /\ s' = s1 else eval n fv cl b s1 = Some (r, s'))
    | _ => r = r1 /\ s' = s1 end).
  { destruct r1 as [v | v |]; [|now injection HE as <- <-|now injection HE as <- <-].
    destruct (struth v) as [bv|] eqn:EB; [|discriminate]. destruct (struth_tag (sto s1) _ _ EB) as (tg & T1 & ->). exists tg. split; auto.
    destruct (tg =? 0); cbn in HE |- *; auto. now injection HE as <- <-. }
  clear HE.
  inversion HC as [ |  |  |  |  |  |  |  |  |  |  |  |  |  |  |  |  |  |  |  |  |  |  |  |  |  |  |  |  |  |  |  |  |  |  |  |  |  |  |  |  | ? ? ? ? ? ? l C1 ? HR1 HG HC1 HC2 | ? ? ? ? ? l k ? C1 ? HT HC1 HC2 | ? ? ? ? ? l ? C1 ? HC1 HC2 | ? ? ? ? ? l ? l1 C1 C2 ? HLb HC1 HC2 | ? ? ? ? ? ? l C1 ? HT HC1 HC2 |  |  |  |  |  |  |  |  |  |  |  | ]; subst.
  - eapply (logic_sim false a b); eauto.
    + intros. apply J_sym. now apply J_goes.
    + intros. eapply (IH b); eauto.
  - eapply (logic_sim false a b); eauto.
    + intros. rewrite HT. apply J_sym. eapply J_step_l; [reflexivity|]. apply J_refl.
    + intros. eapply (IH b); eauto.
  - assert (OKA : okC R x t (zlen st) (Kbranchif l :: C1)) by (apply okC_plain; [lia | exact I]).
    pose proof (IH a _ _ _ _ _ E1 _ _ _ _ _ _ HC2 w h gm st R x t ev acc HF OKA) as OUT.
    destruct r1 as [v | v |]; [| destruct HR as (-> & ->); eapply out_abrt; [reflexivity | exact OUT] ..].
    destruct OUT as (w1 & h1 & gm1 & B1 & B2 & B3). destruct HR as (tg & T1 & T2). unfold Back_Goal.goal in B3. cbn [rety] in B3.
    pose proof (B3 _ T1) as B4. destruct (tg =? 0) eqn:E0; cbn in T2.
    + destruct B4 as (st1 & a1 & D1 & D2 & _ & D3). destruct (conf_land _ _ _ _ _ _ _ _ _ _ _ _ _ _ _ _ _ _ HF B1 B2 D1 D2) as (HF1 & LZ).
      eapply out_seq; [exact D3 | exact B1 | exact D2|]. eapply (IH b); eauto.
    + destruct T2 as (-> & ->). exists w1, h1, gm1. split; auto. split; auto. unfold Back_Goal.goal. cbn [rety]. intros tg' T'. replace tg' with tg by congruence. now rewrite E0.
  - assert (OKA : okC R x t (zlen st) (Kbranchif l1 :: C2)) by (apply okC_plain; [lia | exact I]).
    pose proof (IH a _ _ _ _ _ E1 _ _ _ _ _ _ HC2 w h gm st R x t ev acc HF OKA) as OUT.
    destruct r1 as [v | v |]; [| destruct HR as (-> & ->); eapply out_abrt; [reflexivity | exact OUT] ..].
    destruct OUT as (w1 & h1 & gm1 & B1 & B2 & B3). destruct HR as (tg & T1 & T2). unfold Back_Goal.goal in B3. cbn [rety] in B3.
    pose proof (B3 _ T1) as B4. destruct (tg =? 0) eqn:E0; cbn in T2.
    + destruct B4 as (st1 & a1 & D1 & D2 & _ & D3). destruct (conf_land _ _ _ _ _ _ _ _ _ _ _ _ _ _ _ _ _ _ HF B1 B2 D1 D2) as (HF1 & LZ).
      eapply out_seq; [exact D3 | exact B1 | exact D2|].
      assert (OKB : okC R x t (zlen st) (Kbranchifnot l :: C1)) by (apply okC_plain; [lia | exact I]).
      eapply out_goal; [|eapply (IH b); [exact T2 | exact HC1 | exact HF1 | exact OKB]].
      intros v2 w2 h2 gm2 -> HI2 G. unfold Back_Goal.goal in G |- *. cbn [rety] in *. intros tg2 T3. specialize (G _ T3). destruct (tg2 =? 0); auto.
      destruct G as (st2 & a2 & G1 & G2 & _ & G3). exists st2, a2. split; auto. split; auto. split; auto. eapply J_trans; [exact G3|].
      apply (J_lab mp P base K x t ev h2 gm2 _ _ _ a2 (st2 ++ R) HLb).
    + destruct T2 as (-> & ->). exists w1, h1, gm1. split; auto. split; auto. unfold Back_Goal.goal. cbn [rety]. intros tg' T'. replace tg' with tg by congruence. rewrite E0.
      destruct B4 as (st1 & a1 & D1 & D2 & _ & D3). exists st1, a1. split; auto. split; auto. split; auto.
      eapply J_trans; [exact D3|]. apply (J_lab mp P base K x t ev h1 gm1 _ _ _ a1 (st1 ++ R) HLb).
  - eapply (logic_sim false a b); eauto.
    + intros. rewrite HT. apply J_refl.
    + intros w1 h1 gm1 st1 acc1 HF1 E2.
      destruct (conf_all _ _ _ _ _ _ _ _ _ _ _ _ _ HF1) as (HL1 & _). assert (HO' : okC R x t (zlen st1) C) by now rewrite HL1.
      eapply out_goal; [|eapply (IH b); [exact E2 | exact HC1 | exact HF1 | apply okC_label; auto using zlen_ge0]].
      intros v2 w2 h2 gm2 -> HI2 G. eapply goal_label; eauto.
Qed.

(** handlers *)
Lemma t_shandle b hd : simE (S n) (Lstatichandle b hd).
Proof.
  start. destruct (eval n fv cl b s) as [(r1 & s1)|] eqn:E1; [|discriminate].
  inversion HC as [ |  |  |  |  |  |  |  |  |  |  |  |  |  |  |  |  |  |  |  |  |  |  |  |  |  |  |  |  | ? ? ? ? ? ? HC1 | ? ? ? ? ? ? br C1 Ch l C2 ? HM HC1 HLb HC2 |  |  |  |  |  |  |  |  |  |  |  |  |  |  |  |  |  |  |  |  |  |  |  |  |  |  | ]; subst.
  - assert (r = r1 /\ s' = s1) as (-> & ->). { destruct r1; [now injection HE as <- <-..|]. now apply sfail_eval in HE as (-> & ->). }
    eapply (IH b); eauto.
  - destruct (okC_mbr _ _ _ _ _ _ _ _ HM (zlen_ge0 st) HO) as (O1 & O2).
    assert (HF' : conf s cl w h gm st R x t ev (l, zlen st) (zlen st) vs) by (eapply conf_sf; eauto; cbn; pose proof (zlen_ge0 st); lia).
    pose proof (IH b _ _ _ _ _ E1 _ _ _ _ _ _ HC2 w h gm st R x t ev acc HF' (O2 _)) as OUT.
    destruct r1 as [v | v |].
    + injection HE as <- <-. eapply mbr_out with (D := discardDeadCode C2); [exact HM | exact HO | exact Hx | exact OUT].
    + injection HE as <- <-. eapply mbr_out with (D := discardDeadCode C2); [exact HM | exact HO | exact Hx | exact OUT].
    + destruct OUT as (w1 & h1 & gm1 & B1 & B2 & (st1 & a1 & D1 & D2 & D3)). cbn [fst snd] in D3. rewrite Z.sub_diag in D3. cbn [Z.to_nat skipn] in D3.
      destruct (conf_land _ _ _ _ _ _ _ _ _ _ _ _ _ _ _ _ _ _ HF B1 B2 D1 D2) as (HF1 & LZ).
      eapply out_seq; [eapply J_trans; [exact D3 | apply (J_lab mp P base K x t ev h1 gm1 _ _ _ a1 (st1 ++ R) HLb)] | exact B1 | exact D2|].
      eapply mbr_out_l; [exact HM | now rewrite <- LZ | exact Hx|]. eapply (IH hd); eauto.
Qed.
Lemma firstn_nth {A} (T : list A) : forall l, (forall i, (i < length T)%nat -> nth_error l i = nth_error T i) -> firstn (length T) l = T.
Proof.
  induction T as [|a T IHT]; intros l H; [reflexivity|]. pose proof (H 0%nat ltac:(cbn; lia)) as H0. destruct l as [|b l]; [discriminate|].
  injection H0 as ->. cbn [length firstn]. f_equal. apply IHT. intros i Hi. exact (H (S i) ltac:(cbn; lia)).
Qed.
Lemma keep_top vs T st st1 : slots vs st -> keep vs (T ++ st) st1 -> exists st', st1 = T ++ st' /\ keep vs st st'.
Proof.
  intros (_ & SL) HK. pose proof HK as (L & H). rewrite <- (app_nil_r vs) in HK.
  apply keep_drop in HK as (T' & st' & -> & LT & K'); [|easy]. exists st'. split; auto. f_equal.
  assert (LE : length T' = length T) by (unfold zlen in *; lia).
  rewrite <- (firstn_all T'), LE. apply firstn_nth. intros i Hi.
  specialize (H (zlen (T ++ st) - Z.of_nat i)). rewrite !zlen_app in *. unfold slot in H. rewrite !zlen_app in H. pose proof K' as (L' & _).
  rewrite LT, L' in H. replace (Z.to_nat (zlen T + zlen st - (zlen T + zlen st - Z.of_nat i))) with i in H by lia.
  rewrite !nth_error_app1 in H by lia. apply H. { pose proof (zlen_ge0 st). unfold zlen in *. lia. }
  intros HI. apply SL in HI. unfold zlen in *. lia.
Qed.
Lemma t_handle b hd : simE (S n) (Lhandle b hd).
Proof.
  start. assert (DP : length (loc s) = length vs) by (eapply conf_dp; eauto). cbn zeta in HE. rewrite DP in HE.
  destruct (eval n fv cl b s) as [(r1 & s1)|] eqn:E1; [|discriminate].
  inversion HC as [ |  |  |  |  |  |  |  |  |  |  |  |  |  |  |  |  |  |  |  |  |  |  |  |  |  |  |  |  |  |  |  | ? ? ? ? ? ? br C1 l Ch Cb HM HT HC1 HC2 |  |  |  |  |  |  |  |  |  |  |  |  |  |  |  |  |  |  |  |  |  |  |  |  | ]; subst.
  destruct (okC_mbr _ _ _ _ _ _ _ _ HM (zlen_ge0 st) HO) as (O1 & O2).
  set (T4 := [VPc (target P l); VTrap t; ev; VInt x]).
  set (t' := zlen st + zlen R + 4).
  assert (HF4 : conf s cl w h gm (T4 ++ st) R x t' ev sf (zlen st + 4) vs).
  { pose proof (conf_push _ _ _ _ _ _ _ _ _ _ _ _ _ T4 HF) as [X1 X2 X3 X4 X5 X6 X7 X8]. change (zlen T4) with 4 in *. split; auto. subst t'. lia. }
  assert (OK4 : okC R x t' (zlen st + 4) (Kpoptrap :: br :: Klabel l :: Kpush :: Ch)) by (apply okC_plain; [subst t'; lia | exact I]).
  pose proof (IH b _ _ _ _ _ E1 _ _ _ _ _ _ HC2 w h gm (T4 ++ st) R x t' ev acc HF4 OK4) as OUT.
  assert (JS : J (mkM ((Kpushtrap l :: Cb) ++ K) acc (st ++ R) ev x t h gm) (mkM (Cb ++ K) acc ((T4 ++ st) ++ R) ev x t' h gm)).
  { eapply J_step_l; [|apply J_refl]. cbn [app step pc sp accu env extra trap heap glob]. rewrite app_length. subst t' T4. unfold zlen.
    repeat f_equal. lia. }
  destruct r1 as [v | v |]; [| |discriminate].
  - injection HE as <- <-. apply out_plain in OUT as (w1 & h1 & gm1 & st1 & a & A1 & A2 & A3 & A4 & A5 & A6); auto.
    apply keep_top in A4 as (st2 & -> & A4); auto.
    assert (A3' : stk w1 (sto s1) h1 vs (loc s1) st2).
    { rewrite <- (app_nil_r vs) in A3. pose proof (stk_unbind _ _ _ _ _ _ _ _ _ A3 (keep_slots _ _ _ A4 SL)) as X. apply stk_len in A3. rewrite app_nil_r in A3.
      now rewrite firstn_all2 in X by (unfold zlen in *; lia). }
    eapply mbr_out; [exact HM | exact HO | exact Hx|].
    eapply out_value with (a := a); [exact CO | apply (O2 (Klabel l :: Kpush :: Ch)) | exact Hx | exact A1 | exact A2 | exact A3' | exact A4 | exact A5|].
    eapply J_trans; [exact JS|]. eapply J_trans; [exact A6|]. eapply J_step_l; [reflexivity|]. apply J_refl.
  - destruct (eval n fv cl hd _) as [(r2 & s2)|] eqn:E2 in HE; [|discriminate]. cbn [cut] in HE. injection HE as <- <-.
    change (mkS (firstn (length vs) (loc s2)) (sto s2) (gl s2)) with (cutS (length vs) s2).
    destruct OUT as (w1 & h1 & gm1 & B1 & B2 & (st1 & a & D1 & D2 & D3 & D4)).
    apply keep_top in D2 as (st2 & -> & D2); auto.
    assert (D1' : stk w1 (sto s1) h1 vs (loc s1) st2).
    { rewrite <- (app_nil_r vs) in D1. pose proof (stk_unbind _ _ _ _ _ _ _ _ _ D1 (keep_slots _ _ _ D2 SL)) as X. apply stk_len in D1. rewrite app_nil_r in D1.
      now rewrite firstn_all2 in X by (unfold zlen in *; lia). }
    destruct (conf_land _ _ _ _ _ _ _ _ _ _ _ _ _ _ _ _ _ _ HF B1 B2 D1' D2) as (HF1 & LZ).
    eapply out_seq; [|exact B1|exact D2|].
    { eapply J_trans; [exact JS|]. eapply J_trans; [exact D4|].
      eapply J_step_l. { cbn [step pc accu]. unfold do_raise. cbn [trap sp heap glob]. destruct (t' <=? base) eqn:EB; [subst t'; pose proof (zlen_ge0 st); lia|].
        change (((T4 ++ st2) ++ R)) with ([] ++ ((T4 ++ st2) ++ R)). rewrite (ztake_app [] ((T4 ++ st2) ++ R)).
        2: { cbn [length app]. rewrite !app_length. subst t' T4. cbn [length]. unfold zlen in *. lia. }
        cbn [T4 app]. rewrite HT. reflexivity. }
      eapply J_step_l; [reflexivity|]. apply J_refl. }
    cbn [accu sp env extra trap heap glob]. eapply mbr_out_l; [exact HM | now rewrite <- LZ | exact Hx|].
    eapply (bind_body mp p P base F shc nf n IH CO hd); [exact E2 | exact HC1 | exact O1 | exact HF1 | exact D3].
Qed.
(** shared terms *)
Hypothesis NF : forall c m fv cl s s', nf c -> eval m fv cl c s <> Some (RF, s').
Lemma t_shared k : simE (S n) (Lshared k).
Proof.
  start. destruct (shc k) as [c|] eqn:ESH; [|discriminate].
  inversion HC as [ |  |  |  |  |  |  |  |  |  |  |  |  |  |  |  |  |  |  |  |  |  |  |  |  |  |  |  |  |  |  |  |  |  |  |  |  |  |  |  |  |  |  |  |  |  |  |  |  |  |  |  |  |  |  |  | ? ? ? ? c0 ? Cc l C1 HS1 HC1 HLb | ? ? ? ? c0 ? D sf' C' Cc l C1 HS1 HC1 HLb HSM Hsf' HN]; subst.
  - assert (c0 = c) by congruence. subst c0. eapply out_J; [apply (J_lab mp P base K x t ev h gm _ _ _ acc (st ++ R) HLb)|]. eapply (IH c); eauto.
  - assert (c0 = c) by congruence. subst c0. eapply out_J.
    { eapply J_step_l; [reflexivity|]. apply (J_lab mp P base K x t ev h gm _ _ _ acc (st ++ R) HLb). }
    assert (HF' : conf s cl w h gm st R x t ev sf' (zlen st) vs) by (eapply conf_sf; eauto).
    assert (OK' : okC R x t (zlen st) C') by (eapply okC_same; eauto using zlen_ge0).
    pose proof (IH c _ _ _ _ _ HE _ _ _ _ _ _ HC1 w h gm st R x t ev acc HF' OK') as OUT.
    apply (out_goal _ _ _ _ _ _ _ _ _ _ _ _ _ C) in OUT. 2: { intros v w' h' gm' -> HI' G. eapply goal_same; eauto. }
    destruct HN as [-> | HN]; auto. eapply out_sf; [|exact OUT]. intros ->. eapply NF; eauto.
Qed.
End Ctl.
