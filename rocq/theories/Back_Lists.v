(** Arguments, definitions, calls and primitives. *)
From Verif Require Import Base Opcodes Back_Model Back_Spec Back_Rel.
From Verif Require Import Back_Sim Back_Goal Back_Tree Back_Main.

Section Lists.
Variable mp : prims.
Variable p : sprims.
Variable P : list instr.
Variable base : Z.
Variable F : Z -> option fundef.
Variable shc : nat -> option lam.
Variable nf : lam -> Prop.
Notation ar := (prim_arity mp).
Notation eval := (eval p ar F shc).
Notation step := (step mp P base).
Notation J := (J mp P base).
Notation vrel := (vrel F).
Notation Inv := (Inv F mp p).
Notation stk := (stk F).
Notation out := (out mp p P base F).
Notation goal := (goal mp P base F).
Notation abrt := (abrt mp P base F).
Notation land := (land mp P base F).
Notation retgoal := (retgoal mp P base F).
Notation conf := (conf mp p base F).
Notation sim := (sim mp p P base F shc nf).
Notation rety_frame := (rety_frame base F).
Notation addPop_ok := (addPop_ok F).
Notation slots_le := (slots_le F).
Notation okC_same := (okC_same P).
Notation okC_mbr := (okC_mbr P).
Notation runB n := (fun fd args vs st g =>
  match eval n (f_fv fd) vs (f_body fd) (mkS args st g) with
  | Some (RV v, s') => Some (RV v, sto s', gl s')
  | Some (RX v, s') => Some (RX v, sto s', gl s')
  | _ => None
  end).
Hypothesis CO : code_ok P F shc nf.
Hypothesis PO : prims_ok mp p F.

Lemma conf_slots s cl w h gm st R x t ev sf sz vs : conf s cl w h gm st R x t ev sf sz vs -> slots vs st.
Proof. intros H. apply (c_stk _ _ _ _ _ _ _ _ _ _ _ _ _ _ _ _ _ H). Qed.
(** the evaluation goes on *)
Lemma conf_next s cl w h gm st R x t ev sf sz vs s1 w1 h1 gm1 st1 :
  conf s cl w h gm st R x t ev sf sz vs -> ext w (sto s) h w1 (sto s1) h1 -> Inv w1 (sto s1) h1 (gl s1) gm1 ->
  stk w1 (sto s1) h1 vs (loc s1) st1 -> keep vs st st1 -> conf s1 cl w1 h1 gm1 st1 R x t ev sf sz vs.
Proof.
  intros [] E I S K. split; auto.
  - destruct K as (K & _). congruence.
  - eapply envrel_mono; eauto.
Qed.
Lemma conf_push s cl w h gm st R x t ev sf sz vs T : conf s cl w h gm st R x t ev sf sz vs ->
  conf s cl w h gm (T ++ st) R x t ev sf (sz + zlen T) vs.
Proof.
  intros []. pose proof (zlen_ge0 T). split; auto; try lia.
  - now apply stk_push.
  - rewrite zlen_app. lia.
Qed.
Lemma conf_sf s cl w h gm st R x t ev sf sz vs sf' : conf s cl w h gm st R x t ev sf sz vs -> 0 <= snd sf' <= sz ->
  conf s cl w h gm st R x t ev sf' sz vs.
Proof. intros [] H. split; auto. Qed.
Lemma conf_bind s cl w h gm st R x t ev sf sz vs v a : conf s cl w h gm st R x t ev sf sz vs -> vrel w (sto s) h v a ->
  conf (mkS (loc s ++ [v]) (sto s) (gl s)) cl w h gm (a :: st) R x t ev sf (sz + 1) (vs ++ [sz + 1]).
Proof.
  intros [] H. split; cbn [sto loc gl]; auto; try lia.
  - rewrite <- c_len. now apply stk_bind.
  - rewrite zlen_cons. lia.
Qed.
Lemma conf_dp s cl w h gm st R x t ev sf sz vs : conf s cl w h gm st R x t ev sf sz vs -> length (loc s) = length vs.
Proof. intros []. apply stk_len in c_stk. unfold zlen in c_stk. lia. Qed.
Lemma conf_sz s cl w h gm st R x t ev sf sz vs : conf s cl w h gm st R x t ev sf sz vs -> 0 <= sz.
Proof. intros []. pose proof (zlen_ge0 st). lia. Qed.

(** ** Lists of arguments *)
Definition lout (ord : list value -> list value) K R x t ev sf vs C (s0 : mst) (acc : value) w (s : store) h st (lr : lres) (s' : sst) : Prop :=
  match lr with
  | LV vals => exists w' h' gm' avs st', ext w s h w' (sto s') h' /\ Inv w' (sto s') h' (gl s') gm' /\
      Forall2 (vrel w' (sto s') h') vals avs /\ stk w' (sto s') h' vs (loc s') st' /\ keep vs st st' /\
      J s0 (match ord avs with
            | [] => mkM (C ++ K) acc (st' ++ R) ev x t h' gm'
            | a :: r => mkM (C ++ K) a (r ++ st' ++ R) ev x t h' gm'
            end)
  | LX v => out K R x t ev sf vs C s0 w s h st (RX v) s'
  | LF => out K R x t ev sf vs C s0 w s h st RF s'
  end.
Lemma rev_nil_iff {A} (l : list A) : rev l = [] -> l = [].
Proof. intros H. apply length_zero_iff_nil. rewrite <- rev_length, H. reflexivity. Qed.

Lemma lr_sim n (IH : sim n) fv cl K : forall es s lr s', evals_lr (eval n fv cl) es s = Some (lr, s') ->
  forall sf sz vs C O, cmp_lr P K fv shc nf sf sz vs es C O -> plain C = true ->
  forall w h gm st R x t ev acc, conf s cl w h gm st R x t ev sf sz vs -> (es <> [] -> okC R x t (sz + zlen es - 1) C) ->
  lout (@rev value) K R x t ev sf vs C (mkM (O ++ K) acc (st ++ R) ev x t h gm) acc w (sto s) h st lr s' /\
  (forall vals, lr = LV vals -> length vals = length es).
Proof.
  induction es as [|e r IHr]; intros s lr s' HE sf sz vs C O HC HP w h gm st R x t ev acc HF HO.
  - cbn in HE. injection HE as <- <-. split; [|intros vals [= <-]; auto]. inversion HC; subst.
    exists w, h, gm, [], st. split; [apply ext_refl|]. split; [apply HF|]. split; [constructor|]. split; [apply HF|]. split; [apply keep_refl|]. apply J_refl.
  - pose proof (c_len _ _ _ _ _ _ _ _ _ _ _ _ _ _ _ _ _ HF) as HL. pose proof (conf_slots _ _ _ _ _ _ _ _ _ _ _ _ _ HF) as SL.
    pose proof (c_sf _ _ _ _ _ _ _ _ _ _ _ _ _ _ _ _ _ HF) as Hsf. pose proof (c_t _ _ _ _ _ _ _ _ _ _ _ _ _ _ _ _ _ HF) as Ht.
    assert (HO1 : okC R x t (sz + zlen (e :: r) - 1) C) by (apply HO; discriminate). clear HO. rewrite zlen_cons in HO1.
    cbn [evals_lr] in HE.
    destruct (eval n fv cl e s) as [(r1 & s1)|] eqn:E1; [|discriminate].
    inversion HC as [| ? ? ? ? ? ? HC1 | ? ? ? ? ? ? C1 ? NE HC2 HC1]; subst.
    + (* one *)
      rewrite zlen_nil in HO1. replace (zlen st + (1 + 0) - 1) with (zlen st) in HO1 by lia.
      pose proof (IH e _ _ _ _ _ E1 _ _ _ _ _ _ HC1 w h gm st R x t ev acc HF HO1) as OUT.
      destruct r1 as [v1 | v1 |].
      * cbn [evals_lr] in HE. injection HE as <- <-. split; [|intros vals [= <-]; auto].
        apply out_plain in OUT as (w' & h' & gm' & st' & a & A1 & A2 & A3 & A4 & A5 & A6); auto.
        exists w', h', gm', [a], st'. split; [exact A1|]. split; [exact A2|]. split; [now constructor|]. split; [exact A3|]. split; [exact A4|exact A6].
      * injection HE as <- <-. split; [exact OUT|discriminate].
      * injection HE as <- <-. split; [exact OUT|discriminate].
    + assert (HOP : okC R x t (zlen st) (Kpush :: C1)) by (apply okC_plain; auto).
      pose proof (IH e _ _ _ _ _ E1 _ _ _ _ _ _ HC1 w h gm st R x t ev acc HF HOP) as OUT.
      destruct r1 as [v1 | v1 |].
      2,3: injection HE as <- <-; split; [eapply out_abrt; [|exact OUT]; reflexivity|discriminate].
      apply out_plain in OUT as (w1 & h1 & gm1 & st1 & a & A1 & A2 & A3 & A4 & A5 & A6); auto.
      eapply J_trans in A6; [|apply J_refl]. 
      assert (A7 : J (mkM (O ++ K) acc (st ++ R) ev x t h gm) (mkM (C1 ++ K) a ((a :: st1) ++ R) ev x t h1 gm1)).
      { eapply J_trans; [exact A6|]. eapply J_step_l; [reflexivity|]. apply J_refl. }
      pose proof (conf_next _ _ _ _ _ _ _ _ _ _ _ _ _ _ _ _ _ _ HF A1 A2 A3 A4) as HF1.
      pose proof (conf_push _ _ _ _ _ _ _ _ _ _ _ _ _ [a] HF1) as HF2. cbn [app] in HF2. change (zlen [a]) with 1 in HF2.
      destruct (evals_lr (eval n fv cl) r s1) as [(lr2 & s2)|] eqn:E2; [|discriminate].
      assert (HO2 : r <> [] -> okC R x t (zlen st + 1 + zlen r - 1) C) by (intros _; replace (zlen st + 1 + zlen r - 1) with (zlen st + (1 + zlen r) - 1) by lia; auto).
      destruct (IHr _ _ _ E2 _ _ _ _ _ HC2 HP w1 h1 gm1 (a :: st1) R x t ev a HF2 HO2) as (L2 & LEN).
      assert (SL1 : slots vs st1) by (eapply keep_slots; eauto). pose proof A4 as (LK & _).
      destruct lr2 as [vals | v2 |].
      * injection HE as <- <-. split; [|intros vals2 [= <-]; cbn; f_equal; auto].
        destruct L2 as (w2 & h2 & gm2 & avs & st2 & B1 & B2 & B3 & B4 & B5 & B6).
        apply keep_pop1 in B5 as (st3 & -> & B5); [|now apply slots_le].
        exists w2, h2, gm2, (a :: avs), st3. split; [eapply ext_trans; eauto|]. split; auto.
        split; [constructor; auto; eapply vrel_mono; eauto|]. split.
        { pose proof (keep_slots _ _ _ B5 SL1) as SL3. change (a :: st3) with ([a] ++ st3) in B4. rewrite <- (app_nil_r vs) in B4.
          pose proof (stk_unbind _ _ _ _ _ _ _ _ _ B4 SL3) as B4'. apply stk_len in B4. rewrite app_nil_r in B4.
          replace (firstn (length vs) (loc s2)) with (loc s2) in B4'; auto. rewrite firstn_all2; auto. unfold zlen in B4. lia. }
        split; [eapply keep_trans; eauto|]. eapply J_trans; [exact A7|].
        cbn [rev]. destruct (rev avs) as [|b q] eqn:ER.
        { exfalso. apply rev_nil_iff in ER. subst. inversion B3; subst. specialize (LEN _ eq_refl). destruct r; easy. }
        cbn [app] in *. rewrite <- app_assoc. exact B6.
      * injection HE as <- <-. split; [|discriminate]. eapply out_seq; [exact A7 | exact A1 | exact A4 |].
        eapply out_pop0 with (T := [a]) (K := K) (C := C) ; [reflexivity | exact SL1 | lia | lia |exact L2].
      * injection HE as <- <-. split; [|discriminate]. eapply out_seq; [exact A7 | exact A1 | exact A4 |].
        eapply out_pop0 with (T := [a]) (K := K) (C := C) ; [reflexivity | exact SL1 | lia | lia |exact L2].
Qed.

Lemma rl_sim n (IH : sim n) fv cl K : forall es s lr s', evals_rl (eval n fv cl) es s = Some (lr, s') ->
  forall sf sz vs C O, cmp_rl P K fv shc nf sf sz vs es C O -> plain C = true ->
  forall w h gm st R x t ev acc, conf s cl w h gm st R x t ev sf sz vs -> (es <> [] -> okC R x t (sz + zlen es - 1) C) ->
  lout (fun l => l) K R x t ev sf vs C (mkM (O ++ K) acc (st ++ R) ev x t h gm) acc w (sto s) h st lr s' /\
  (forall vals, lr = LV vals -> length vals = length es).
Proof.
  induction es as [|e r IHr]; intros s lr s' HE sf sz vs C O HC HP w h gm st R x t ev acc HF HO.
  - cbn in HE. injection HE as <- <-. split; [|intros vals [= <-]; auto]. inversion HC; subst.
    exists w, h, gm, [], st. split; [apply ext_refl|]. split; [apply HF|]. split; [constructor|]. split; [apply HF|]. split; [apply keep_refl|]. apply J_refl.
  - pose proof (c_len _ _ _ _ _ _ _ _ _ _ _ _ _ _ _ _ _ HF) as HL. pose proof (conf_slots _ _ _ _ _ _ _ _ _ _ _ _ _ HF) as SL.
    pose proof (c_sf _ _ _ _ _ _ _ _ _ _ _ _ _ _ _ _ _ HF) as Hsf. pose proof (c_t _ _ _ _ _ _ _ _ _ _ _ _ _ _ _ _ _ HF) as Ht.
    assert (HO1 : okC R x t (sz + zlen (e :: r) - 1) C) by (apply HO; discriminate). clear HO. rewrite zlen_cons in HO1.
    cbn [evals_rl] in HE.
    inversion HC as [| ? ? ? ? ? ? HC1 | ? ? ? ? ? ? C1 ? NE HC1 HC2]; subst.
    + (* one *)
      rewrite zlen_nil in HO1. replace (zlen st + (1 + 0) - 1) with (zlen st) in HO1 by lia.
      cbn [evals_rl] in HE. destruct (eval n fv cl e s) as [(r1 & s1)|] eqn:E1; [|discriminate].
      pose proof (IH e _ _ _ _ _ E1 _ _ _ _ _ _ HC1 w h gm st R x t ev acc HF HO1) as OUT.
      destruct r1 as [v1 | v1 |].
      * injection HE as <- <-. split; [|intros vals [= <-]; auto].
        apply out_plain in OUT as (w' & h' & gm' & st' & a & A1 & A2 & A3 & A4 & A5 & A6); auto.
        exists w', h', gm', [a], st'. split; [exact A1|]. split; [exact A2|]. split; [now constructor|]. split; [exact A3|]. split; [exact A4|exact A6].
      * injection HE as <- <-. split; [exact OUT|discriminate].
      * injection HE as <- <-. split; [exact OUT|discriminate].
    + assert (LR : 1 <= zlen r). { destruct r; [easy|]. rewrite zlen_cons. pose proof (zlen_ge0 r). lia. }
      destruct (evals_rl (eval n fv cl) r s) as [(lr2 & s2)|] eqn:E2; [|discriminate].
      assert (HO2 : r <> [] -> okC R x t (zlen st + zlen r - 1) (Kpush :: C1)) by (intros _; apply okC_plain; auto; lia).
      destruct (IHr _ _ _ E2 _ _ _ _ _ HC2 eq_refl w h gm st R x t ev acc HF HO2) as (L2 & LEN).
      destruct lr2 as [vals | v2 |].
      2,3: injection HE as <- <-; split; [eapply out_abrt with (K := K) (C := Kpush :: C1); [|exact L2]; reflexivity|discriminate].
      destruct L2 as (w1 & h1 & gm1 & avs & st1 & A1 & A2 & A3 & A4 & A5 & A6).
      specialize (LEN _ eq_refl). pose proof (F2len A3) as LA.
      assert (LZ : zlen avs = zlen r) by (unfold zlen; lia).
      assert (EA : exists b, J (mkM (O ++ K) acc (st ++ R) ev x t h gm) (mkM (C1 ++ K) b ((avs ++ st1) ++ R) ev x t h1 gm1)).
      { destruct avs as [|b q]; [rewrite zlen_nil in LZ; lia|]. exists b. eapply J_trans; [exact A6|].
        eapply J_step_l; [reflexivity|]. cbn [app accu sp]. rewrite <- app_assoc. apply J_refl. }
      destruct EA as (b & A7).
      pose proof (conf_next _ _ _ _ _ _ _ _ _ _ _ _ _ _ _ _ _ _ HF A1 A2 A4 A5) as HF1.
      pose proof (conf_push _ _ _ _ _ _ _ _ _ _ _ _ _ avs HF1) as HF2. rewrite LZ in HF2.
      destruct (eval n fv cl e s2) as [(r1 & s1)|] eqn:E1; [|discriminate].
      assert (HO3 : okC R x t (zlen st + zlen r) C) by (replace (zlen st + zlen r) with (zlen st + (1 + zlen r) - 1) by lia; auto).
      pose proof (IH e _ _ _ _ _ E1 _ _ _ _ _ _ HC1 w1 h1 gm1 (avs ++ st1) R x t ev b HF2 HO3) as OUT.
      assert (SL1 : slots vs st1) by (eapply keep_slots; eauto). pose proof A5 as (LK & _).
      destruct r1 as [v1 | v1 |].
      * injection HE as <- <-. split; [|intros vals2 [= <-]; cbn; f_equal; auto].
        apply out_plain in OUT as (w2 & h2 & gm2 & st2 & a & B1 & B2 & B3 & B4 & B5 & B6); auto.
        apply keep_pop in B4 as (st3 & -> & B4); [|now apply slots_le].
        exists w2, h2, gm2, (a :: avs), st3. split; [eapply ext_trans; eauto|]. split; auto.
        split; [constructor; auto; eapply vrels_mono; eauto|]. split.
        { pose proof (keep_slots _ _ _ B4 SL1) as SL3. rewrite <- (app_nil_r vs) in B3.
          pose proof (stk_unbind _ _ _ _ _ _ _ _ _ B3 SL3) as B3'. apply stk_len in B3. rewrite app_nil_r in B3.
          replace (firstn (length vs) (loc s1)) with (loc s1) in B3'; auto. rewrite firstn_all2; auto. unfold zlen in B3. lia. }
        split; [eapply keep_trans; eauto|]. eapply J_trans; [exact A7|]. rewrite <- (app_assoc avs st3 R) in B6. exact B6.
      * injection HE as <- <-. split; [|discriminate]. eapply out_seq; [exact A7 | exact A1 | exact A5 |].
        eapply out_pop0 with (T := avs) (K := K) (C := C) ; [reflexivity | exact SL1 | lia | lia |exact OUT].
      * injection HE as <- <-. split; [|discriminate]. eapply out_seq; [exact A7 | exact A1 | exact A5 |].
        eapply out_pop0 with (T := avs) (K := K) (C := C) ; [reflexivity | exact SL1 | lia | lia |exact OUT].
Qed.

(** ** Definitions *)
Lemma let_sim n (IH : sim n) fv cl K b : forall args s lr s1, evals_let (eval n fv cl) args s = Some (lr, s1) ->
  forall r s', match lr with LV _ => eval n fv cl b s1 | LX v => Some (RX v, s1) | LF => Some (RF, s1) end = Some (r, s') ->
  forall sf na sz vs0 vs2 C O, cmp_let P K fv shc nf sf na sz (vs0 ++ vs2) args b C O ->
  forall w h gm T st0 R x t ev acc, conf s cl w h gm (T ++ st0) R x t ev sf sz (vs0 ++ vs2) ->
    slots vs0 st0 -> (forall z, In z vs2 -> zlen st0 < z) -> snd sf <= zlen st0 -> okC R x t (zlen st0) C -> na = zlen T + zlen args ->
  out K R x t ev sf vs0 C (mkM (O ++ K) acc ((T ++ st0) ++ R) ev x t h gm) w (sto s) h st0 r (cutS (length vs0) s').
Proof.
  induction args as [|e r IHr]; intros s lr s1 HE rs s' HB sf na sz vs0 vs2 C O HC w h gm T st0 R x t ev acc HF SL V2 Hsf HO Hna.
  - cbn in HE. injection HE as <- <-. inversion HC as [? ? ? ? ? ? ? HC1|]; subst. rewrite zlen_nil, Z.add_0_r in HC1.
    eapply out_pop; eauto; try apply HF. { pose proof (c_sf _ _ _ _ _ _ _ _ _ _ _ _ _ _ _ _ _ HF). lia. }
    eapply IH; eauto. rewrite <- (c_len _ _ _ _ _ _ _ _ _ _ _ _ _ _ _ _ _ HF), zlen_app, Z.add_comm. apply addPop_ok; auto using zlen_ge0.
  - pose proof (c_len _ _ _ _ _ _ _ _ _ _ _ _ _ _ _ _ _ HF) as HL. pose proof (c_sf _ _ _ _ _ _ _ _ _ _ _ _ _ _ _ _ _ HF) as Hs2.
    pose proof (okC_t _ _ _ _ _ (zlen_ge0 st0) HO) as Ht0.
    inversion HC as [|? ? ? ? ? ? ? ? C1 ? HC2 HC1]; subst. cbn [evals_let] in HE.
    destruct (eval n fv cl e s) as [(r1 & s2)|] eqn:E1; [|discriminate].
    assert (HOP : okC R x t (zlen (T ++ st0)) (Kpush :: C1)) by (apply okC_plain; auto; apply HF).
    pose proof (IH e _ _ _ _ _ E1 _ _ _ _ _ _ HC1 w h gm (T ++ st0) R x t ev acc HF HOP) as OUT.
    destruct r1 as [v1 | v1 |].
    + apply out_plain in OUT as (w1 & h1 & gm1 & st1 & a & A1 & A2 & A3 & A4 & A5 & A6); auto.
      pose proof (conf_next _ _ _ _ _ _ _ _ _ _ _ _ _ _ _ _ _ _ HF A1 A2 A3 A4) as HF1.
      pose proof (conf_bind _ _ _ _ _ _ _ _ _ _ _ _ _ _ _ HF1 A5) as HF2.
      apply keep_drop in A4 as (T1 & st2 & -> & LT & A4); auto. pose proof A4 as (LK & _).
      eapply out_seq; [|exact A1|exact A4|].
      { eapply J_trans; [exact A6|]. eapply J_step_l; [reflexivity|]. apply J_refl. }
      rewrite <- app_assoc in HC2, HF2. rewrite zlen_app in *.
      eapply (IHr _ _ _ HE _ _ HB _ _ _ vs0 (vs2 ++ [zlen T + zlen st0 + 1]) C C1 HC2 w1 h1 gm1 (a :: T1) st2 R x t ev a HF2); auto.
      * eapply keep_slots; eauto.
      * intros z Hz. apply in_app_iff in Hz. rewrite LK. destruct Hz as [Hz | [<- | []]]; auto. pose proof (zlen_ge0 T). lia.
      * lia.
      * now rewrite LK.
      * rewrite !zlen_cons. lia.
    + injection HE as <- <-. injection HB as <- <-. eapply out_pop_abrt with (K := K) (C := Kpush :: C1) (T := T); eauto. lia.
    + injection HE as <- <-. injection HB as <- <-. eapply out_pop_abrt with (K := K) (C := Kpush :: C1) (T := T); eauto. lia.
Qed.

(** ** Assignment to a slot *)
Lemma zlen_set {A} (l : list A) n a : zlen (set_nth l n a) = zlen l.
Proof. unfold zlen. now rewrite set_nth_length. Qed.
Lemma slot_set st z z' a : 1 <= z <= zlen st -> 1 <= z' <= zlen st ->
  slot (set_nth st (Z.to_nat (zlen st - z)) a) z' = if z' =? z then Some a else slot st z'.
Proof.
  intros H H'. unfold slot. rewrite zlen_set, nth_error_set_nth.
  destruct (Z.eqb_spec z' z) as [-> | N].
  - rewrite Nat.eqb_refl. destruct (nth_error st _) eqn:E; auto. apply nth_error_None in E. unfold zlen in *. lia.
  - destruct (Nat.eqb_spec (Z.to_nat (zlen st - z')) (Z.to_nat (zlen st - z))); auto. lia.
Qed.
Lemma stk_assign w s h vs ls st n z v a : stk w s h vs ls st -> nth_error vs n = Some z -> vrel w s h v a ->
  stk w s h vs (set_nth ls n v) (set_nth st (Z.to_nat (zlen st - z)) a) /\ keep vs st (set_nth st (Z.to_nat (zlen st - z)) a).
Proof.
  intros ((ND & B) & H) HN HV. assert (Hz : In z vs) by (eapply nth_error_In; eauto). pose proof (B _ Hz) as Bz.
  split; [split; [split; auto; now rewrite zlen_set|]|split; [now rewrite zlen_set|]].
  - assert (B' : forall z, In z vs -> 1 <= z <= zlen st) by auto. clear B. revert n HN. clear Hz.
    induction H as [|z1 v1 vs ls (a1 & H1 & H2) H IH]; intros [|n] HN; try discriminate; cbn [set_nth]; inversion ND as [|? ? NI ND2]; subst.
    + injection HN as ->. constructor.
      * exists a. split; auto. rewrite slot_set by auto. now rewrite Z.eqb_refl.
      * eapply Forall2_weak; [|exact H]. intros z2 v2 Hi (a2 & HA4 & HA5). exists a2. split; auto.
        rewrite slot_set; auto; [|apply B'; now right]. destruct (Z.eqb_spec z2 z); auto. subst. easy.
    + constructor.
      * exists a1. split; auto. rewrite slot_set; auto; [|apply B'; now left]. destruct (Z.eqb_spec z1 z); auto.
        subst. exfalso. apply NI. eapply nth_error_In; eauto.
      * apply IH; auto. intros; apply B'; now right.
  - intros z' Hz' N. rewrite slot_set by auto. destruct (Z.eqb_spec z' z); auto. subst. easy.
Qed.

(** ** Calls *)
Lemma apps_func run f xs s g r : xs <> [] -> apps F run f xs s g = Some r ->
  exists l args lbl vs' fd, func f = Some (l, args) /\ nth_error s l = Some (Clo lbl vs') /\ F lbl = Some fd.
Proof.
  destruct xs as [|x xs]; [easy|]. intros _ HA. cbn [apps] in HA. unfold app1 in HA.
  destruct f; try (rewrite (proj2 (nth_error_None _ _)) in HA by lia; discriminate);
    (destruct (nth_error s l) as [[]|] eqn:ES; try discriminate; destruct (F lbl) eqn:EF; try discriminate; cbn [func]; do 5 eexists; eauto).
Qed.
Lemma call_sim n (IH : sim n) f xs s g r s' g' : xs <> [] -> apps F (runB n) f xs s g = Some (r, s', g') ->
  forall w h gm af xavs R x t, Inv w s h g gm -> vrel w s h f af -> Forall2 (vrel w s h) xs xavs ->
    frame_ok R x -> t <= zlen R -> base <= zlen R ->
    exists c w' h' gm', code_val P h af = Some c /\ ext w s h w' s' h' /\ Inv w' s' h' g' gm' /\
      let s0 := mkM c af (xavs ++ R) af (x + zlen xavs - 1) t h gm in
      match r with
      | RV v => retgoal R x t w' s' h' gm' s0 v
      | RX v => exists a, vrel w' s' h' v a /\ forall e x', J s0 (mkM [Kraise] a R e x' t h' gm')
      | RF => False
      end.
Proof.
  intros NE HA w h gm af xavs R x t I Vf Vx FO Ht Hb.
  destruct (apps_func _ _ _ _ _ _ NE HA) as (l & args & lbl & vs' & fd & Ff & S1 & F1).
  destruct (enter _ _ _ base _ _ _ CO _ _ _ _ _ _ _ _ _ _ _ _ t I Vf Ff S1 F1) as (c & avs & ad & A1 & A2 & A3 & A4 & A5).
  destruct (apply_sim _ _ _ _ _ _ _ CO n IH xs f l args lbl vs' fd s g r s' g' NE Ff S1 F1 A4 HA w h gm avs xavs ad af R x t I A2 Vx A3 FO Ht Hb)
    as (w' & h' & gm' & B1 & B2 & B3).
  exists c, w', h', gm'. split; auto. split; auto. split; auto. cbn zeta in *.
  specialize (A5 (xavs ++ R) (x + zlen xavs - 1)).
  replace (x + zlen xavs - 1 + zlen avs) with (x + zlen avs + zlen xavs - 1) in A5 by lia.
  destruct r as [v | v |]; auto.
  - eapply retgoal_J; eauto.
  - destruct B3 as (a & Va & B3). exists a. split; auto. intros. eapply J_trans; [exact A5|apply B3].
Qed.

(** ** Tests *)
Lemma test_rel t a b s r w h g gm av bv : stest p t a b s = Some r -> vrel w s h a av -> vrel w s h b bv -> Inv w s h g gm ->
  test mp t av bv h = Some r /\ is_imm t = false.
Proof.
  intros H Va Vb I.
  assert (PH : forall r, sphys s a b = Some r -> phys_eq av bv = Some r).
  { unfold sphys. clear H r. intros r.
    destruct a, b; cbn in Va, Vb; cbn [andb]; try discriminate; try (rewrite andb_false_r; discriminate);
      repeat match goal with |- context [match nth_error s ?l with _ => _ end] => destruct (nth_error s l) as [[]|]; cbn [andb]; try discriminate end;
      repeat match goal with H : exists ad, _ |- _ => destruct H as (? & ? & ->) end; subst; cbn; auto.
    intros [= <-]. f_equal. destruct (Nat.eqb_spec l l0) as [-> | N].
    - assert (x0 = x) by congruence. subst. apply Nat.eqb_refl.
    - apply Nat.eqb_neq. intros E. subst x0. apply N. pose proof (i_nd _ _ _ _ _ _ _ _ I) as ND. rewrite NoDup_nth_error in ND.
      apply ND; [apply nth_error_Some; congruence | congruence]. }
  destruct t as [| | q | q | q | q | q]; cbn in H |- *.
  - split; auto.
  - destruct (sphys s a b); try discriminate. injection H as <-. erewrite PH; eauto.
  - destruct a; try discriminate. destruct b; try discriminate. cbn in Va, Vb. subst. destruct q; auto; discriminate.
  - destruct q; try discriminate; split; auto; eapply (po_test _ _ _ PO); eauto.
  - destruct q; try discriminate; split; auto; eapply (po_test _ _ _ PO); eauto.
  - destruct a; try discriminate. destruct b; try discriminate. cbn in Va, Vb. subst. destruct q; auto; discriminate.
  - discriminate.
Qed.
Lemma test_inv t t' a b s r : invertBoolTest t = Ret t' -> stest p t a b s = Some r -> stest p t' a b s = Some (negb r).
Proof.
  intros HI H. pose proof HI as HI'.
  destruct t as [| | q | q | q | q | q]; cbn in HI; try discriminate.
  - injection HI as <-. cbn in *. now rewrite H.
  - injection HI as <-. cbn in *. destruct (sphys s a b); try discriminate. injection H as <-. now rewrite negb_involutive.
  - destruct q; cbn in HI; try discriminate; injection HI as <-; cbn in *; destruct a; try discriminate; destruct b; try discriminate;
      injection H as <-; f_equal; lia.
  - destruct q; cbn in HI; try discriminate; injection HI as <-; cbn in H |- *; eapply (po_inv _ _ _ PO) in H; eauto.
  - destruct q; cbn in HI; try discriminate; injection HI as <-; cbn in H |- *; eapply (po_inv _ _ _ PO) in H; eauto.
  - destruct q; cbn in HI; try discriminate; injection HI as <-; cbn in *; destruct a; try discriminate; destruct b; try discriminate;
      injection H as <-; f_equal; lia.
Qed.
End Lists.
