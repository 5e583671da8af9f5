(** The simulation for primitives. *)
From Verif Require Import Base Opcodes Back_Model Back_Spec Back_Rel.
From Verif Require Import Back_Sim Back_Goal Back_Tree Back_Main Back_Lists Back_Terms Back_Defs.

Section Prims.
Variable mp : prims.
Variable p : sprims.
Variable P : list instr.
Variable base : Z.
Variable F : Z -> option fundef.
Variable shc : nat -> option lam.
Variable nf : lam -> Prop.
Notation ar := (prim_arity mp).
Notation eval := (eval p ar F shc).
Notation step := (step mp P base).
Notation J := (J mp P base).
Notation vrel := (vrel F).
Notation Inv := (Inv F mp p).
Notation stk := (stk F).
Notation out := (out mp p P base F).
Notation goal := (goal mp P base F).
Notation abrt := (abrt mp P base F).
Notation land := (land mp P base F).
Notation retgoal := (retgoal mp P base F).
Notation conf := (conf mp p base F).
Notation simE := (simE mp p P base F shc nf).
Notation sim := (sim mp p P base F shc nf).
Notation rety_frame := (rety_frame base F).
Notation addPop_ok := (addPop_ok F).
Notation slots_le := (slots_le F).
Notation okC_same := (okC_same P).
Notation okC_mbr := (okC_mbr P).
Notation cmp := (fun K fv => cmp P K fv shc nf).
Notation cmp_rl := (fun K fv => cmp_rl P K fv shc nf).
Notation cmp_init := (fun K fv => cmp_init P K fv shc nf).
Notation cmp_args := (fun K fv => cmp_args P K fv shc nf).
Notation conf_all := (conf_all mp p base F).
Notation conf_next := (conf_next mp p base F).
Notation conf_push := (conf_push mp p base F).
Notation conf_bind := (conf_bind mp p base F).
Notation conf_dp := (conf_dp mp p base F).
Notation rl_sim := (rl_sim mp p P base F shc nf).
Notation let_sim := (let_sim mp p P base F shc nf).
Variable n : nat.
Hypothesis IH : sim n.
Hypothesis CO : code_ok P F shc nf.
Notation sub_abrt := (sub_abrt mp p P base F shc nf n IH).
Notation sub_plain := (sub_plain mp p P base F shc nf n IH).

Ltac start := intros fv cl s r s' HE K sf sz vs C O HC w h gm st R x t ev acc HF HO; cbn [Back_Spec.eval] in HE;
  destruct (conf_all _ _ _ _ _ _ _ _ _ _ _ _ _ HF) as (HL & SL & Hsf & Ht & Hx & Hb & HI & HS & HEN); subst sz.

Hypothesis PO : prims_ok mp p F.
Notation cmp_lr := (fun K fv => cmp_lr P K fv shc nf).
Notation lr_sim := (lr_sim mp p P base F shc nf).
Ltac hb H := match type of H with context [bindV ?a _] => let r := fresh "r1" in let s := fresh "s1" in let E := fresh "E1" in destruct a as [(r & s)|] eqn:E; [|discriminate H]; cbn [bindV] in H end.
Ltac hl H := match type of H with context [bindL ?a _] => let r := fresh "lr" in let s := fresh "s1" in let E := fresh "EL" in destruct a as [(r & s)|] eqn:E; [|discriminate H]; cbn [bindL] in H end.

Definition top (acc : value) (l sp : list value) : value * list value := match l with [] => (acc, sp) | a :: r => (a, r ++ sp) end.
Lemma args_lr es fv cl s lr s1 K sf sz vs i C O w h gm st R x t ev acc K' C' :
  evals_lr (eval n fv cl) es s = Some (lr, s1) -> cmp_lr K fv sf sz vs es (i :: C) O ->
  plain (i :: C) = true -> match i with Kpop _ | Kreturn _ | Klabel _ => False | _ => True end ->
  conf s cl w h gm st R x t ev sf sz vs ->
  match lr with
  | LV vals => exists w1 h1 gm1 avs st1, ext w (sto s) h w1 (sto s1) h1 /\ conf s1 cl w1 h1 gm1 st1 R x t ev sf sz vs /\
      keep vs st st1 /\ Forall2 (vrel w1 (sto s1) h1) vals avs /\ length vals = length es /\
      J (mkM (O ++ K) acc (st ++ R) ev x t h gm)
        (mkM (i :: C ++ K) (fst (top acc (rev avs) (st1 ++ R))) (snd (top acc (rev avs) (st1 ++ R))) ev x t h1 gm1)
  | LX v => out K' R x t ev sf vs C' (mkM (O ++ K) acc (st ++ R) ev x t h gm) w (sto s) h st (RX v) s1
  | LF => out K' R x t ev sf vs C' (mkM (O ++ K) acc (st ++ R) ev x t h gm) w (sto s) h st RF s1
  end.
Proof.
  intros HE HC HP Hi HF. destruct (conf_all _ _ _ _ _ _ _ _ _ _ _ _ _ HF) as (HL & SL & Hsf & Ht & Hx & Hb & HI & HS & HEN).
  destruct (lr_sim n IH fv cl K es s lr s1 HE _ _ _ _ _ HC HP w h gm st R x t ev acc HF) as (L & LEN).
  { intros NE. apply okC_plain; auto. destruct es; [easy|]. rewrite zlen_cons. pose proof (zlen_ge0 es). lia. }
  destruct lr as [vals | v |].
  - destruct L as (w1 & h1 & gm1 & avs & st1 & A1 & A2 & A3 & A4 & A5 & A6). specialize (LEN _ eq_refl).
    exists w1, h1, gm1, avs, st1. split; auto. split; [eapply conf_next; eauto|]. split; auto. split; auto. split; auto.
    eapply J_trans; [exact A6|]. unfold top. destruct (rev avs); apply J_refl.
  - eapply out_abrt with (K := K) (C := i :: C); [reflexivity | exact L].
  - eapply out_abrt with (K := K) (C := i :: C); [reflexivity | exact L].
Qed.
Lemma F2nth {A B} (R : A -> B -> Prop) l l' k v : Forall2 R l l' -> nth_error l k = Some v -> exists a, nth_error l' k = Some a /\ R v a.
Proof. intros H. revert k. induction H; intros [|k] HV; try discriminate; cbn in *; [injection HV as <-; eauto | eauto]. Qed.
Lemma stag_tag w s h g gm v a tg : Inv w s h g gm -> vrel w s h v a -> stag s v = Some tg -> tag_val h a = Some tg.
Proof.
  intros HI HV. destruct v; try discriminate; cbn.
  - intros [= ->]. cbn in HV. now subst a.
  - destruct (nth_error s l) as [[t vs|]|] eqn:E; try discriminate. intros [= ->]. destruct HV as (ad & HW & ->).
    destruct (i_blk _ _ _ _ _ _ _ _ HI _ _ E) as (ad' & m & H1 & H2 & (avs & -> & _)). rewrite HW in H1. injection H1 as <-. cbn. now rewrite H2.
Qed.
Lemma struth_tag s v b : struth v = Some b -> exists tg, stag s v = Some tg /\ b = negb (tg =? 0).
Proof. destruct v; try discriminate. intros [= <-]. exists t. split; reflexivity. Qed.
Lemma generic_out q vals cl s1 r s' K sf sz vs C w1 h1 gm1 st1 avs R x t ev acc :
  (forall a r, rev avs = a :: r -> step (mkM (Kprim q :: C ++ K) a (r ++ st1 ++ R) ev x t h1 gm1) =
     match take (ar q - 1) (r ++ st1 ++ R) with
     | Some (vs, r) =>
         match prim_sem mp q (rev (a :: vs)) h1 with
         | Some (true, v, h) => Some (mkM (C ++ K) v r ev x t h gm1)
         | Some (false, v, h) => Some (mkM (Kraise :: C ++ K) v r ev x t h gm1)
         | None => None
         end
     | None => None
     end) ->
  (1 <=? Z.of_nat (length vals)) && Nat.eqb (length vals) (ar q) = true ->
  match sprim p q vals (sto s1) with
  | Some (true, v, s') => Some (RV v, mkS (loc s1) s' (gl s1))
  | Some (false, v, s') => Some (RX v, mkS (loc s1) s' (gl s1))
  | None => None
  end = Some (r, s') ->
  conf s1 cl w1 h1 gm1 st1 R x t ev sf sz vs -> Forall2 (vrel w1 (sto s1) h1) vals avs -> okC R x t sz C ->
  out K R x t ev sf vs C (mkM (Kprim q :: C ++ K) (fst (top acc (rev avs) (st1 ++ R))) (snd (top acc (rev avs) (st1 ++ R))) ev x t h1 gm1)
    w1 (sto s1) h1 st1 r s'.
Proof.
  intros HST HB HP HF HV HO. destruct (conf_all _ _ _ _ _ _ _ _ _ _ _ _ _ HF) as (HL & SL & Hsf & Ht & Hx & Hb & HI & HS & HEN).
  destruct (sprim p q vals (sto s1)) as [((b & v) & st')|] eqn:EP; [|discriminate].
  destruct (po_prim _ _ _ PO _ _ _ _ _ _ _ _ _ _ _ EP HV HI) as (a & w2 & h2 & B1 & B2 & B3 & B4).
  pose proof (F2len HV) as LV. destruct (rev avs) as [|a0 r0] eqn:ER. { apply rev_nil_iff in ER. subst avs. destruct vals; [discriminate HB | discriminate LV]. }
  pose proof (HST a0 r0 eq_refl) as STEP.
  assert (LR : length r0 = (ar q - 1)%nat). { apply (f_equal (@length value)) in ER. rewrite rev_length in ER. cbn in ER. apply andb_true_iff in HB as (_ & HB). apply Nat.eqb_eq in HB. lia. }
  rewrite (take_app r0 (st1 ++ R) _ LR) in STEP. rewrite <- ER, rev_involutive, B1 in STEP. cbn [top fst snd].
  assert (HS2 : stk w2 st' h2 vs (loc s1) st1) by (eapply stk_mono; eauto). rewrite <- HL in HO.
  destruct b; injection HP as <- <-.
  - eapply out_value with (w' := w2) (h' := h2) (gm' := gm1); eauto using keep_refl. eapply J_step_l; [exact STEP | apply J_refl].
  - exists w2, h2, gm1. cbn [sto gl loc]. split; auto. split; auto. exists st1, a. split; auto. split; [apply keep_refl|]. split; auto.
    eapply J_step_l; [exact STEP|]. apply (J_raise mp P base _ _ _ []). unfold zlen in *. rewrite app_length. lia.
Qed.
Ltac argl HA HC1 EL HF := match type of HC1 with Back_Rel.cmp_lr _ ?K _ _ _ ?sf ?sz ?vs ?es (?i :: ?C) ?O =>
  match type of EL with _ = Some (?lr, ?s1) => match type of HF with Back_Main.conf _ _ _ _ ?s ?cl ?w ?h ?gm ?st ?R ?x ?t ?ev _ _ _ => 
   match goal with acc : value, _ : okC _ _ _ _ ?C0 |- _ =>
  pose proof (args_lr es _ cl s lr s1 K sf sz vs i C O w h gm st R x t ev acc K C0 EL HC1 eq_refl I HF) as HA end end end end.
Ltac split_lr lr HE HA vals w1 h1 gm1 avs st1 A1 A2 A3 A4 A5 A6 :=
  destruct lr as [vals | v |]; [| injection HE as <- <-; exact HA | injection HE as <- <-; exact HA];
  destruct HA as (w1 & h1 & gm1 & avs & st1 & A1 & A2 & A3 & A4 & A5 & A6);
  eapply out_seq; [exact A6 | exact A1 | exact A3|].
Lemma zeqb_neq a b : (a =? b) = false -> a <> b.
Proof. lia. Qed.
Lemma t_prim q es : simE (S n) (Lprim q es).
Proof.
  start. destruct (ident_ok q es) eqn:EI; [|discriminate]. hl HE. rename lr into lr.
  inversion HC as [ |  |  |  |  |  |  |  |  |  |  |  |  |  | ? ? ? e ? ? HC1 | ? ? ? e ? ? HC1 | ? ? ? u ? | ? ? ? u e ? ? HC1 | ? ? ? i ? ? ? HC1 | ? ? ? i ? ? ? HC1 | ? ? ? tg sp0 ? ? ? HC1 | ? ? ? e l ? ? HC1 | ? ? ? e l ? ? HC1 | ? ? ? tt ? l ? ? HC1 | ? ? ? tt tt' ? l ? ? EINV HC1 | ? ? ? ? ? ? HC1 | ? ? ? lbl csz ? ? ? HC1 | ? ? ? e ? ? HC1 | ? ? ? q0 ? ? ? NQ HC1 |  |  |  |  |  |  |  |  |  |  |  |  |  |  |  |  |  |  |  |  |  |  |  |  |  |  |  |  | ]; subst; cbn [ident_ok] in EI; try match type of EI with Nat.eqb _ _ = _ => fail 1 | _ => clear EI end.
  - (* succ *)
    cbn [evals_lr] in EL. destruct (eval n fv cl e s) as [(r1 & s2)|] eqn:E1; [|discriminate].
    assert (OKA : okC R x t (zlen st) (Kprim (Psimple SMLSUCCINT) :: C)) by (apply okC_plain; [lia | exact I]).
    destruct r1 as [v | v |].
    2,3: injection EL as <- <-; cbn in HE; injection HE as <- <-; eapply sub_abrt; [exact E1 | reflexivity | exact HC1 | exact OKA | exact HF].
    destruct n as [|m] eqn:EN; [discriminate|]. rewrite <- EN in *. assert (EC : eval n fv cl (Lconst (INTscon 1)) s2 = Some (RV (SNum 1), s2)) by (rewrite EN; reflexivity).
    rewrite EC in EL. injection EL as <- <-. cbn [bindL] in HE.
    destruct (sub_plain _ _ _ _ _ _ _ _ _ _ _ _ _ _ _ _ _ _ _ _ acc E1 HC1 eq_refl OKA HF) as (w1 & h1 & gm1 & st1 & a & A1 & A2 & A3 & A4 & A5).
    eapply out_seq; [exact A5 | exact A1 | exact A3|]. cbn [ev_lprim ev_prim] in HE.
    change (SMLADDINT =? UPDATE) with false in HE. change (SMLADDINT =? BOOLNOT) with false in HE. change (SMLADDINT =? TAGOF) with false in HE. cbn iota in HE.
    destruct (_ && _)%bool in HE; [|discriminate].
    destruct (sprim p (Psimple SMLADDINT) [v; SNum 1] (sto s2)) as [y|] eqn:EP; [|discriminate]. apply (po_succ _ _ _ PO) in EP.
    apply (generic_out (Psimple SMLSUCCINT) [v] cl s2 r s' K sf (zlen st) vs C w1 h1 gm1 st1 [a] R x t ev acc); auto.
    + now rewrite (po_succ1 _ _ _ PO).
    + now rewrite EP.
  - (* pred *)
    cbn [evals_lr] in EL. destruct (eval n fv cl e s) as [(r1 & s2)|] eqn:E1; [|discriminate].
    assert (OKA : okC R x t (zlen st) (Kprim (Psimple SMLPREDINT) :: C)) by (apply okC_plain; [lia | exact I]).
    destruct r1 as [v | v |].
    2,3: injection EL as <- <-; cbn in HE; injection HE as <- <-; eapply sub_abrt; [exact E1 | reflexivity | exact HC1 | exact OKA | exact HF].
    destruct n as [|m] eqn:EN; [discriminate|]. rewrite <- EN in *. assert (EC : eval n fv cl (Lconst (INTscon 1)) s2 = Some (RV (SNum 1), s2)) by (rewrite EN; reflexivity).
    rewrite EC in EL. injection EL as <- <-. cbn [bindL] in HE.
    destruct (sub_plain _ _ _ _ _ _ _ _ _ _ _ _ _ _ _ _ _ _ _ _ acc E1 HC1 eq_refl OKA HF) as (w1 & h1 & gm1 & st1 & a & A1 & A2 & A3 & A4 & A5).
    eapply out_seq; [exact A5 | exact A1 | exact A3|]. cbn [ev_lprim ev_prim] in HE.
    change (SMLSUBINT =? UPDATE) with false in HE. change (SMLSUBINT =? BOOLNOT) with false in HE. change (SMLSUBINT =? TAGOF) with false in HE. cbn iota in HE.
    destruct (_ && _)%bool in HE; [|discriminate].
    destruct (sprim p (Psimple SMLSUBINT) [v; SNum 1] (sto s2)) as [y|] eqn:EP; [|discriminate]. apply (po_pred _ _ _ PO) in EP.
    apply (generic_out (Psimple SMLPREDINT) [v] cl s2 r s' K sf (zlen st) vs C w1 h1 gm1 st1 [a] R x t ev acc); auto.
    + now rewrite (po_pred1 _ _ _ PO).
    + now rewrite EP.
  - (* a global variable *)
    cbn in EL. injection EL as <- <-. cbn in HE. destruct (slook (gl s) u) as [v|] eqn:EG; [|discriminate]. injection HE as <- <-.
    destruct (i_glob _ _ _ _ _ _ _ _ HI _ _ EG) as (a & G1 & G2).
    eapply out_value; eauto using ext_refl, keep_refl. eapply J_step_l; [|apply J_refl]. cbn [app step pc glob]. rewrite G1. reflexivity.
  - cbn [evals_lr] in EL. destruct (eval n fv cl e s) as [(r1 & s2)|] eqn:E1; [|discriminate].
    assert (OKA : okC R x t (zlen st) (Kset_global u :: C)) by (apply okC_plain; [lia | exact I]).
    destruct r1 as [v | v |].
    2,3: injection EL as <- <-; cbn in HE; injection HE as <- <-; eapply sub_abrt; [exact E1 | reflexivity | exact HC1 | exact OKA | exact HF].
    injection EL as <- <-. cbn in HE. injection HE as <- <-.
    destruct (sub_plain _ _ _ _ _ _ _ _ _ _ _ _ _ _ _ _ _ _ _ _ acc E1 HC1 eq_refl OKA HF) as (w1 & h1 & gm1 & st1 & a & A1 & A2 & A3 & A4 & A5).
    destruct (conf_all _ _ _ _ _ _ _ _ _ _ _ _ _ A2) as (HL1 & SL1 & _ & _ & _ & _ & HI1 & HS1 & _).
    eapply out_value with (w' := w1) (h' := h1) (gm' := (u, a) :: gm1) (st' := st1); eauto; cbn [sto gl loc]; auto.
    + now apply Inv_glob.
    + reflexivity.
    + eapply J_trans; [exact A5|]. eapply J_step_l; [reflexivity|]. apply J_refl.
  - (* field *)
    argl HA HC1 EL HF. split_lr lr HE HA vals w1 h1 gm1 avs st1 A1 A2 A3 A4 A5 A6.
    destruct (conf_all _ _ _ _ _ _ _ _ _ _ _ _ _ A2) as (HL1 & SL1 & _ & _ & _ & _ & HI1 & HS1 & _). rewrite <- HL1 in HO.
    cbn [ev_lprim] in HE. destruct vals as [|[] [|]]; try discriminate. destruct (nth_error (sto s1) l) as [[tg fs|]|] eqn:ES; try discriminate.
    destruct (0 <=? i) eqn:Ei; [|discriminate]. destruct (nth_error fs (Z.to_nat i)) as [v|] eqn:EF; [|discriminate]. injection HE as <- <-.
    inversion A4 as [|? a ? q0 VA HN]; subst. destruct VA as (ad & W1 & ->). inversion HN; subst. cbn [rev app top fst snd].
    destruct (i_blk _ _ _ _ _ _ _ _ HI1 _ _ ES) as (ad' & m & H1 & H2 & (favs & -> & H4)). rewrite W1 in H1. injection H1 as <-.
    destruct (F2nth _ _ _ _ _ H4 EF) as (a & Ha & HV).
    eapply out_value with (a := a); eauto using ext_refl, keep_refl. eapply J_step_l; [|apply J_refl]. cbn [step pc accu heap field]. rewrite H2, Ei. cbn [fields]. now rewrite Ha.
  - (* setfield *)
    argl HA HC1 EL HF. split_lr lr HE HA vals w1 h1 gm1 avs st1 A1 A2 A3 A4 A5 A6.
    destruct (conf_all _ _ _ _ _ _ _ _ _ _ _ _ _ A2) as (HL1 & SL1 & _ & _ & _ & _ & HI1 & HS1 & _). rewrite <- HL1 in HO.
    cbn [ev_lprim] in HE. destruct vals as [|[] [|v [|]]]; try discriminate. destruct (nth_error (sto s1) l) as [[tg fs|]|] eqn:ES; try discriminate.
    destruct (_ && _)%bool eqn:Ei in HE; [|discriminate]. injection HE as <- <-.
    inversion A4 as [|? a ? q0 VA HN]; subst. destruct VA as (ad & W1 & ->). inversion HN as [|? a2 ? ? HV HN2]; subst. inversion HN2; subst. cbn [rev app top fst snd].
    destruct (i_blk _ _ _ _ _ _ _ _ HI1 _ _ ES) as (ad' & m & H1 & H2 & (favs & -> & H4)). rewrite W1 in H1. injection H1 as <-.
    pose proof (F2len H4) as LF.
    destruct (Inv_replace _ _ _ _ _ _ _ _ _ _ _ _ _ (Blk tg (set_nth fs (Z.to_nat i) v)) (mkBlock tg (set_nth favs (Z.to_nat i) a2)) HI1 ES W1 H2) as (B1 & B2).
    { exists (set_nth favs (Z.to_nat i) a2). split; auto. apply Forall2_set_nth; auto. }
    eapply out_value with (s' := mkS (loc s1) _ (gl s1)) (gm' := gm1) (a := unit_val); [exact CO | exact HO | exact Hx | exact B1 | exact B2 | cbn [sto loc]; eapply stk_mono; eauto | apply keep_refl | reflexivity |].
    eapply J_step_l; [|apply J_refl]. cbn [step pc sp accu heap set_field]. rewrite H2. cbn [fields btag]. rewrite <- LF, Ei. reflexivity.
  - (* makeblock *)
    argl HA HC1 EL HF. split_lr lr HE HA vals w1 h1 gm1 avs st1 A1 A2 A3 A4 A5 A6.
    destruct (conf_all _ _ _ _ _ _ _ _ _ _ _ _ _ A2) as (HL1 & SL1 & _ & _ & _ & _ & HI1 & HS1 & _). rewrite <- HL1 in HO.
    cbn [ev_lprim] in HE. destruct vals as [|v0 vr]; [discriminate|]. injection HE as <- <-.
    assert (HB : brel F (w1 ++ [length h1]) (sto s1 ++ [Blk tg (v0 :: vr)]) (h1 ++ [mkBlock tg avs]) (Blk tg (v0 :: vr)) (mkBlock tg avs)).
    { exists avs. split; auto. eapply vrels_mono; [apply ext_alloc | exact A4]. }
    destruct (conf_alloc _ _ _ _ _ _ _ _ _ _ _ _ _ _ _ _ _ _ _ A2 HB) as (D1 & D2).
    destruct (conf_all _ _ _ _ _ _ _ _ _ _ _ _ _ D1) as (_ & _ & _ & _ & _ & _ & HI2 & HS2 & _). cbn [sto loc gl] in *.
    eapply out_value with (w' := w1 ++ [length h1]) (h' := h1 ++ [mkBlock tg avs]) (gm' := gm1); cbn [sto loc gl]; eauto using keep_refl, ext_alloc.
    eapply J_step_l; [|apply J_refl]. cbn [step pc sp accu].
    pose proof (F2len A4) as LV. destruct (rev avs) as [|a0 r0] eqn:ER. { apply rev_nil_iff in ER. subst avs. discriminate LV. }
    cbn [top fst snd]. rewrite (ztake_app r0 (st1 ++ R)). 2: { apply (f_equal (@length value)) in ER. rewrite rev_length in ER. cbn [length] in *. unfold zlen. lia. }
    rewrite <- ER, rev_involutive. reflexivity.
  - (* not, under a branch *)
    cbn [evals_lr] in EL. destruct (eval n fv cl e s) as [(r1 & s2)|] eqn:E1; [|discriminate].
    assert (OKA : okC R x t (zlen st) (Kbranchifnot l :: C0)) by (apply okC_plain; [lia | exact I]).
    destruct r1 as [v | v |].
    2,3: injection EL as <- <-; cbn in HE; injection HE as <- <-; eapply sub_abrt; [exact E1 | reflexivity | exact HC1 | exact OKA | exact HF].
    injection EL as <- <-. cbn in HE. destruct (struth v) as [b|] eqn:EB; [|discriminate]. injection HE as <- <-.
    pose proof (IH e _ _ _ _ _ E1 _ _ _ _ _ _ HC1 w h gm st R x t ev acc HF OKA) as (w' & h' & gm' & B1 & B2 & B3).
    exists w', h', gm'. split; auto. split; auto. destruct (struth_tag (sto s2) _ _ EB) as (tg & T1 & T2).
    unfold Back_Goal.goal in B3 |- *. cbn [rety] in *. intros tg' Htg'. specialize (B3 _ T1).
    subst b. unfold sbool in Htg'. destruct (tg =? 0) eqn:E0; cbn in Htg'; injection Htg' as <-; exact B3.
  - cbn [evals_lr] in EL. destruct (eval n fv cl e s) as [(r1 & s2)|] eqn:E1; [|discriminate].
    assert (OKA : okC R x t (zlen st) (Kbranchif l :: C0)) by (apply okC_plain; [lia | exact I]).
    destruct r1 as [v | v |].
    2,3: injection EL as <- <-; cbn in HE; injection HE as <- <-; eapply sub_abrt; [exact E1 | reflexivity | exact HC1 | exact OKA | exact HF].
    injection EL as <- <-. cbn in HE. destruct (struth v) as [b|] eqn:EB; [|discriminate]. injection HE as <- <-.
    pose proof (IH e _ _ _ _ _ E1 _ _ _ _ _ _ HC1 w h gm st R x t ev acc HF OKA) as (w' & h' & gm' & B1 & B2 & B3).
    exists w', h', gm'. split; auto. split; auto. destruct (struth_tag (sto s2) _ _ EB) as (tg & T1 & T2).
    unfold Back_Goal.goal in B3 |- *. cbn [rety] in *. intros tg' Htg'. specialize (B3 _ T1).
    subst b. unfold sbool in Htg'. destruct (tg =? 0) eqn:E0; cbn in Htg'; injection Htg' as <-; exact B3.
  - (* a test *)
    argl HA HC1 EL HF. split_lr lr HE HA vals w1 h1 gm1 avs st1 A1 A2 A3 A4 A5 A6.
    destruct (conf_all _ _ _ _ _ _ _ _ _ _ _ _ _ A2) as (HL1 & SL1 & _ & _ & _ & _ & HI1 & HS1 & _). rewrite <- HL1 in HO.
    cbn [ev_lprim ev_prim] in HE. destruct vals as [|va [|vb [|]]]; try discriminate. destruct (stest p tt va vb (sto s1)) as [b|] eqn:ET; [|discriminate]. injection HE as <- <-.
    inversion A4 as [|? aa ? ? VA HN]; subst. inversion HN as [|? ab ? ? VB HN2]; subst. inversion HN2; subst. cbn [rev app top fst snd].
    destruct (test_rel _ _ _ PO _ _ _ _ _ _ _ _ _ _ _ ET VA VB HI1) as (T1 & T2).
    exists w1, h1, gm1. split; [apply ext_refl|]. split; auto. unfold Back_Goal.goal. cbn [rety]. intros tg Htg.
    exists st1. eexists. split; auto. split; [apply keep_refl|]. split; auto.
    destruct b; (eapply J_step_l; [cbn [step pc sp accu heap]; rewrite T2, T1; reflexivity|]);
      cbn in Htg; injection Htg as <-; apply J_refl.
  - argl HA HC1 EL HF. split_lr lr HE HA vals w1 h1 gm1 avs st1 A1 A2 A3 A4 A5 A6.
    destruct (conf_all _ _ _ _ _ _ _ _ _ _ _ _ _ A2) as (HL1 & SL1 & _ & _ & _ & _ & HI1 & HS1 & _). rewrite <- HL1 in HO.
    cbn [ev_lprim ev_prim] in HE. destruct vals as [|va [|vb [|]]]; try discriminate. destruct (stest p tt va vb (sto s1)) as [b|] eqn:ET; [|discriminate]. injection HE as <- <-.
    inversion A4 as [|? aa ? ? VA HN]; subst. inversion HN as [|? ab ? ? VB HN2]; subst. inversion HN2; subst. cbn [rev app top fst snd].
    apply (test_inv _ _ _ PO _ _ _ _ _ _ EINV) in ET.
    destruct (test_rel _ _ _ PO _ _ _ _ _ _ _ _ _ _ _ ET VA VB HI1) as (T1 & T2).
    exists w1, h1, gm1. split; [apply ext_refl|]. split; auto. unfold Back_Goal.goal. cbn [rety]. intros tg Htg.
    exists st1. eexists. split; auto. split; [apply keep_refl|]. split; auto.
    destruct b; (eapply J_step_l; [cbn [step pc sp accu heap]; rewrite T2, T1; reflexivity|]);
      cbn in Htg; injection Htg as <-; apply J_refl.
  - (* raise *)
    argl HA HC1 EL HF. split_lr lr HE HA vals w1 h1 gm1 avs st1 A1 A2 A3 A4 A5 A6.
    destruct (conf_all _ _ _ _ _ _ _ _ _ _ _ _ _ A2) as (HL1 & SL1 & _ & Ht1 & _ & _ & HI1 & HS1 & _).
    cbn [ev_lprim] in HE. destruct vals as [|v [|]]; try discriminate. injection HE as <- <-.
    inversion A4 as [|? a ? ? VA HN]; subst. inversion HN; subst. cbn [rev app top fst snd].
    exists w1, h1, gm1. split; [apply ext_refl|]. split; auto. exists st1, a. split; auto. split; [apply keep_refl|]. split; auto.
    apply (J_raise mp P base _ _ _ []). unfold zlen in *. rewrite app_length. lia.
  - (* a closure *)
    destruct (rl_sim n IH fv cl K es s lr s1 EL _ _ _ _ _ HC1 eq_refl w h gm st R x t ev acc HF) as (L & LEN).
    { intros NE. apply okC_plain; auto. destruct es; [easy|]. rewrite zlen_cons. pose proof (zlen_ge0 es). lia. }
    destruct lr as [vals | v |].
    2,3: injection HE as <- <-; eapply out_abrt with (K := K) (C := Kclosure lbl csz :: C); [reflexivity | exact L].
    destruct L as (w1 & h1 & gm1 & avs & st1 & A1 & A2 & A3 & A4 & A5 & A6). specialize (LEN _ eq_refl). pose proof (F2len A3) as LA.
    cbn [ev_lprim] in HE. destruct (csz =? Z.of_nat (length vals)) eqn:ECS; [|destruct vals; discriminate].
    assert (HE' : Some (RV (SLoc (length (sto s1))), mkS (loc s1) (sto s1 ++ [Clo lbl vals]) (gl s1)) = Some (r, s')) by (destruct vals; exact HE).
    injection HE' as <- <-. clear HE. assert (HF1 : conf s1 cl w1 h1 gm1 st1 R x t ev sf (zlen st) vs) by (eapply conf_next; eauto).
    eapply out_seq; [exact A6 | exact A1 | exact A5|].
    assert (HB : brel F (w1 ++ [length h1]) (sto s1 ++ [Clo lbl vals]) (h1 ++ [mkBlock Closure_tag (VCode lbl :: avs)]) (Clo lbl vals) (mkBlock Closure_tag (VCode lbl :: avs))).
    { exists avs. split; auto. eapply vrels_mono; [apply ext_alloc | exact A3]. }
    destruct (conf_alloc _ _ _ _ _ _ _ _ _ _ _ _ _ _ _ _ _ _ _ HF1 HB) as (D1 & D2).
    destruct (conf_all _ _ _ _ _ _ _ _ _ _ _ _ _ D1) as (LL & _ & _ & _ & _ & _ & HI2 & HS2 & _). cbn [sto loc gl] in *. rewrite <- LL in HO.
    eapply out_value with (w' := w1 ++ [length h1]) (h' := h1 ++ [mkBlock Closure_tag (VCode lbl :: avs)]) (gm' := gm1) (st' := st1); cbn [sto loc gl]; eauto using keep_refl, ext_alloc.
    destruct avs as [|b q].
    + eapply J_step_l; [|apply J_refl]. cbn [step pc accu sp app]. replace csz with 0 by (cbn in *; lia). reflexivity.
    + eapply J_step_l; [|apply J_refl]. cbn [step pc accu sp app]. destruct (0 <? csz) eqn:E0; [|cbn [length] in *; lia].
      change (b :: q ++ st1 ++ R) with ((b :: q) ++ (st1 ++ R)). rewrite (ztake_app (b :: q) (st1 ++ R)) by (cbn [length] in *; lia). reflexivity.
  - (* identity *)
    destruct es as [|e [|? ?]]; try discriminate EI. inversion HC1 as [|? ? ? ? ? ? HC2|]; subst; try congruence.
    cbn [evals_lr] in EL. destruct (eval n fv cl e s) as [(r1 & s2)|] eqn:E1; [|discriminate].
    assert (r = r1 /\ s' = s2) as (-> & ->). { destruct r1; injection EL as <- <-; cbn in HE; injection HE as <- <-; auto. }
    exact (IH e _ _ _ _ _ E1 _ _ _ _ _ _ HC2 w h gm st R x t ev acc HF HO).
  - (* a primitive *)
    argl HA HC1 EL HF. split_lr lr HE HA vals w1 h1 gm1 avs st1 A1 A2 A3 A4 A5 A6.
    destruct (conf_all _ _ _ _ _ _ _ _ _ _ _ _ _ A2) as (HL1 & SL1 & _ & Ht1 & _ & _ & HI1 & HS1 & _).
    cbn [ev_lprim] in HE. unfold ev_prim in HE.
    destruct q0 as [ | k | tt | nm k | tg | op | ]; try easy; try (destruct vals; discriminate).
    + destruct vals as [|va [|vb [|]]]; try discriminate. destruct (stest p tt va vb (sto s1)) as [b|] eqn:ET; [|discriminate]. injection HE as <- <-.
      inversion A4 as [|? aa ? ? VA HN]; subst. inversion HN as [|? ab ? ? VB HN2]; subst. inversion HN2; subst. cbn [rev app top fst snd].
      destruct (test_rel _ _ _ PO _ _ _ _ _ _ _ _ _ _ _ ET VA VB HI1) as (T1 & T2). rewrite <- HL1 in HO.
      eapply out_value with (a := bool_val b); eauto using ext_refl, keep_refl; [destruct b; reflexivity|].
      eapply J_step_l; [|apply J_refl]. cbn [step pc sp accu heap]. rewrite T1. reflexivity.
    + destruct ((1 <=? Z.of_nat (length vals)) && Nat.eqb (length vals) (ar (Pccall nm k))) eqn:EB; [|destruct vals; discriminate].
      assert (HE' := HE). clear HE. eapply (generic_out (Pccall nm k) vals cl s1 r s' K sf _ vs C w1 h1 gm1 st1 avs R x t ev acc); eauto.
    + destruct vals; try discriminate. injection HE as <- <-. inversion A4; subst. rewrite <- HL1 in HO.
      eapply out_value with (a := VAtom tg); eauto using ext_refl, keep_refl; [reflexivity|]. eapply J_step_l; [reflexivity | apply J_refl].
    + destruct (op =? UPDATE) eqn:EU; [destruct vals; discriminate|].
      destruct (op =? BOOLNOT) eqn:EBN.
      { destruct vals as [|v [|]]; try discriminate. destruct (struth v) as [b|] eqn:EB; [|discriminate]. injection HE as <- <-.
        inversion A4 as [|? aa ? ? VA HN]; subst. inversion HN; subst. cbn [rev app top fst snd]. rewrite <- HL1 in HO.
        destruct (struth_tag (sto s1) _ _ EB) as (tg & T1 & T2). pose proof (stag_tag _ _ _ _ _ _ _ _ HI1 VA T1) as T3.
        eapply out_value with (a := bool_val (negb b)); eauto using ext_refl, keep_refl; [destruct b; reflexivity|].
        eapply J_step_l; [|apply J_refl]. cbn [step pc accu heap]. rewrite EU, EBN. unfold truth. rewrite T3, <- T2. reflexivity. }
      destruct (op =? TAGOF) eqn:ETG.
      { destruct vals as [|v [|]]; try discriminate. destruct (stag (sto s1) v) as [tg|] eqn:ES; [|discriminate]. injection HE as <- <-.
        inversion A4 as [|? aa ? ? VA HN]; subst. inversion HN; subst. cbn [rev app top fst snd]. rewrite <- HL1 in HO.
        pose proof (stag_tag _ _ _ _ _ _ _ _ HI1 VA ES) as T3.
        eapply out_value with (a := VInt tg); eauto using ext_refl, keep_refl; [reflexivity|].
        eapply J_step_l; [|apply J_refl]. cbn [step pc accu heap]. rewrite EU, EBN, ETG, T3. reflexivity. }
      destruct ((1 <=? Z.of_nat (length vals)) && Nat.eqb (length vals) (ar (Psimple op))) eqn:EB; [|destruct vals; discriminate].
      eapply (generic_out (Psimple op) vals cl s1 r s' K sf _ vs C w1 h1 gm1 st1 avs R x t ev acc); eauto.
      intros a0 r0 ER. cbn [step pc sp accu env extra trap heap glob]. now rewrite EU, EBN, ETG.
Qed.
End Prims.
