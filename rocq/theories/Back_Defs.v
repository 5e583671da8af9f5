(** The simulation for definitions. *)
From Verif Require Import Base Opcodes Back_Model Back_Spec Back_Rel.
From Verif Require Import Back_Sim Back_Goal Back_Tree Back_Main Back_Lists Back_Terms.

Section Defs.
Variable mp : prims.
Variable p : sprims.
Variable P : list instr.
Variable base : Z.
Variable F : Z -> option fundef.
Variable shc : nat -> option lam.
Variable nf : lam -> Prop.
Notation ar := (prim_arity mp).
Notation eval := (eval p ar F shc).
Notation step := (step mp P base).
Notation J := (J mp P base).
Notation vrel := (vrel F).
Notation Inv := (Inv F mp p).
Notation stk := (stk F).
Notation out := (out mp p P base F).
Notation goal := (goal mp P base F).
Notation abrt := (abrt mp P base F).
Notation land := (land mp P base F).
Notation retgoal := (retgoal mp P base F).
Notation conf := (conf mp p base F).
Notation simE := (simE mp p P base F shc nf).
Notation sim := (sim mp p P base F shc nf).
Notation rety_frame := (rety_frame base F).
Notation addPop_ok := (addPop_ok F).
Notation slots_le := (slots_le F).
Notation okC_same := (okC_same P).
Notation okC_mbr := (okC_mbr P).
Notation cmp := (fun K fv => cmp P K fv shc nf).
Notation cmp_rl := (fun K fv => cmp_rl P K fv shc nf).
Notation cmp_init := (fun K fv => cmp_init P K fv shc nf).
Notation cmp_args := (fun K fv => cmp_args P K fv shc nf).
Notation conf_all := (conf_all mp p base F).
Notation conf_next := (conf_next mp p base F).
Notation conf_push := (conf_push mp p base F).
Notation conf_bind := (conf_bind mp p base F).
Notation conf_dp := (conf_dp mp p base F).
Notation rl_sim := (rl_sim mp p P base F shc nf).
Notation let_sim := (let_sim mp p P base F shc nf).
Variable n : nat.
Hypothesis IH : sim n.
Hypothesis CO : code_ok P F shc nf.
Notation sub_abrt := (sub_abrt mp p P base F shc nf n IH).
Notation sub_plain := (sub_plain mp p P base F shc nf n IH).

Ltac start := intros fv cl s r s' HE K sf sz vs C O HC w h gm st R x t ev acc HF HO; cbn [Back_Spec.eval] in HE;
  destruct (conf_all _ _ _ _ _ _ _ _ _ _ _ _ _ HF) as (HL & SL & Hsf & Ht & Hx & Hb & HI & HS & HEN); subst sz.

Lemma goal_any K R x t e st vs w s h gm ls ls' s0 C v : (length vs = length ls -> ls' = ls) ->
  goal K R x t e st vs w s h gm ls s0 C v -> goal K R x t e st vs w s h gm ls' s0 C SAny.
Proof.
  intros HL. assert (G : forall c Q, land R x t e st vs w s h gm ls s0 c Q -> land R x t e st vs w s h gm ls' s0 c (fun _ => True)).
  { intros c Q (st' & a & A & B & C' & D). exists st', a. rewrite HL by (apply stk_len in A; unfold zlen in A; lia). auto. }
  unfold Back_Goal.goal. destruct (rety C).
  - intros (A & B). split. { intros E. destruct (A E) as (a & V & H). exists a. split; auto. exact I. }
    intros E l args lbl vs' fd HF. discriminate HF.
  - destruct C as [|i C]; [apply G|]. destruct i; cbn [overwrites]; try apply G; intros _ tg [=].
Qed.
Lemma t_let args b : simE (S n) (Llet args b).
Proof.
  start. assert (DP : length (loc s) = length vs) by (eapply conf_dp; eauto). cbn zeta in HE. rewrite DP in HE.
  inversion HC as [ |  |  |  |  |  |  |  | ? ? ? e ? ? HC1 | ? ? ? ? ? ? ? HC1 |  |  |  |  |  |  |  |  |  |  |  |  |  |  |  |  |  |  |  |  |  |  |  |  |  |  |  |  |  |  |  |  |  |  |  |  |  |  |  |  |  |  |  |  |  |  |  | ]; subst.
  - cbn [evals_let] in HE. destruct (eval n fv cl e s) as [(r1 & s1)|] eqn:E1; [|discriminate].
    pose proof (IH e _ _ _ _ _ E1 _ _ _ _ _ _ HC1 w h gm st R x t ev acc HF HO) as OUT.
    destruct r1 as [v | v |].
    + destruct n as [|m] eqn:EN; [discriminate|]. cbn in HE. injection HE as <- <-.
      destruct OUT as (w' & h' & gm' & A & B & D). exists w', h', gm'. cbn [sto gl loc]. split; auto. split; auto.
      eapply goal_any; [|exact D]. intros ->. rewrite firstn_app, firstn_all, Nat.sub_diag. cbn. now rewrite app_nil_r.
    + cbn in HE. injection HE as <- <-. destruct OUT as (w' & h' & gm' & A & B & D). exists w', h', gm'. cbn [sto gl loc].
      split; auto. split; auto. pose proof (abrt_len _ _ _ _ _ _ _ _ _ _ _ _ _ _ _ _ _ _ D) as ->. now rewrite firstn_all.
    + cbn in HE. injection HE as <- <-. destruct OUT as (w' & h' & gm' & A & B & D). exists w', h', gm'. cbn [sto gl loc].
      split; auto. split; auto. pose proof (abrt_len _ _ _ _ _ _ _ _ _ _ _ _ _ _ _ _ _ _ D) as ->. now rewrite firstn_all.
  - destruct (evals_let (eval n fv cl) args s) as [(lr & s1)|] eqn:EL; [|discriminate].
    assert (HB : exists s2, match lr with LV _ => eval n fv cl b s1 | LX v => Some (RX v, s1) | LF => Some (RF, s1) end = Some (r, s2) /\ s' = cutS (length vs) s2).
    { destruct lr; cbn [cut] in HE; [destruct (eval n fv cl b s1) as [(r2 & s2)|]; [|discriminate]; cbn [cut] in HE | |]; injection HE as <- <-; eexists; split; reflexivity. }
    destruct HB as (s2 & HB & ->). rewrite <- (app_nil_r vs) in HC1, HF.
    apply (let_sim CO n IH fv cl K b args s lr s1 EL r s2 HB _ _ _ vs [] C O HC1 w h gm [] st R x t ev acc HF); auto; try easy; lia.
Qed.

(** ** letrec *)
Lemma vars_evals fv cl s : (1 <= n)%nat -> forall es ns vals, as_vars es = Some ns -> vars fv cl (loc s) ns = Some vals ->
  evals_rl (eval n fv cl) es s = Some (LV vals, s).
Proof.
  intros Hn. induction es as [|e r IHr]; intros ns vals HA HV; cbn [as_vars] in HA.
  - injection HA as <-. cbn in HV. injection HV as <-. reflexivity.
  - destruct e; try discriminate. cbn [as_var] in HA. destruct (as_vars r) as [l|]; try discriminate. injection HA as <-.
    cbn [vars] in HV. destruct (var fv cl (loc s) n0) as [v|] eqn:EV; [|discriminate]. destruct (vars fv cl (loc s) l) as [vs|] eqn:EL; [|discriminate].
    injection HV as <-. cbn [evals_rl]. rewrite (IHr _ _ eq_refl EL). destruct n as [|m]; [lia|]. cbn [Back_Spec.eval]. now rewrite EV.
Qed.
Lemma var_snoc fv cl l v k a : k <> Z.of_nat (length l) -> var fv cl (l ++ [a]) k = Some v -> var fv cl l k = Some v.
Proof.
  intros Hk. unfold var. destruct (k <? 0) eqn:E; auto. intros H. destruct (Nat.lt_ge_cases (Z.to_nat k) (length l)).
  - now rewrite nth_error_app1 in H.
  - rewrite nth_error_app2 in H by lia. destruct (Z.to_nat k - length l)%nat as [|j] eqn:Ej; [lia|]. destruct j; discriminate.
Qed.
Lemma vars_snoc fv cl l a : forall ns vals, forallb (fun m => negb (m =? Z.of_nat (length l))) ns = true ->
  vars fv cl (l ++ [a]) ns = Some vals -> vars fv cl l ns = Some vals.
Proof.
  induction ns as [|k ns IHn]; intros vals HB HV; auto. cbn [forallb] in HB. apply andb_true_iff in HB as (HB1 & HB2). cbn [vars] in *.
  destruct (var fv cl (l ++ [a]) k) as [v|] eqn:EV; [|discriminate]. destruct (vars fv cl (l ++ [a]) ns) as [vs|] eqn:EL; [|discriminate].
  apply negb_true_iff, Z.eqb_neq in HB1. rewrite (var_snoc _ _ _ _ _ _ HB1 EV), (IHn _ HB2 eq_refl). exact HV.
Qed.
(** the closure *)
Lemma clos_args es fv cl s ns vals K sf sz vs i C O w h gm st R x t ev acc : (1 <= n)%nat ->
  as_vars es = Some ns -> vars fv cl (loc s) ns = Some vals ->
  cmp_rl K fv sf sz vs es (i :: C) O -> plain (i :: C) = true -> match i with Kpop _ | Kreturn _ | Klabel _ => False | _ => True end ->
  conf s cl w h gm st R x t ev sf sz vs ->
  exists w1 h1 gm1 avs st1 b q, ext w (sto s) h w1 (sto s) h1 /\ conf s cl w1 h1 gm1 st1 R x t ev sf sz vs /\
    keep vs st st1 /\ Forall2 (vrel w1 (sto s) h1) vals avs /\ zlen avs = zlen es /\ (if 0 <? zlen avs then b :: q else q) = avs ++ st1 ++ R /\
    J (mkM (O ++ K) acc (st ++ R) ev x t h gm) (mkM (i :: C ++ K) b q ev x t h1 gm1).
Proof.
  intros Hn HA HV HC HP Hi HF. pose proof (vars_evals fv cl s Hn es ns vals HA HV) as HE.
  destruct (conf_all _ _ _ _ _ _ _ _ _ _ _ _ _ HF) as (HL & SL & Hsf & Ht & Hx & Hb & HI & HS & HEN).
  destruct (rl_sim n IH fv cl K es s _ s HE _ _ _ _ _ HC HP w h gm st R x t ev acc HF) as (L & LEN).
  { intros NE. apply okC_plain; auto. destruct es; [easy|]. rewrite zlen_cons. pose proof (zlen_ge0 es). lia. }
  destruct L as (w1 & h1 & gm1 & avs & st1 & A1 & A2 & A3 & A4 & A5 & A6). specialize (LEN _ eq_refl). pose proof (F2len A3) as LA.
  exists w1, h1, gm1, avs, st1. assert (LZ : zlen avs = zlen es) by (unfold zlen; lia).
  assert (HF1 : conf s cl w1 h1 gm1 st1 R x t ev sf sz vs) by (eapply conf_next; eauto).
  destruct avs as [|b q].
  - exists acc, (st1 ++ R). split; auto. split; auto.
  - exists b, (q ++ st1 ++ R). split; [exact A1|]. split; [exact HF1|]. split; [exact A5|]. split; [exact A3|]. split; [exact LZ|]. split; [reflexivity | exact A6].
Qed.
Lemma bind_body b fv cl s1 r s' K sf sz vs C Cb w1 h1 gm1 st1 R x t ev acc v a :
  eval n fv cl b (mkS (loc s1 ++ [v]) (sto s1) (gl s1)) = Some (r, s') ->
  cmp K fv sf (sz + 1) (vs ++ [sz + 1]) b (addPop 1 C) Cb -> okC R x t sz C ->
  conf s1 cl w1 h1 gm1 st1 R x t ev sf sz vs -> vrel w1 (sto s1) h1 v a ->
  out K R x t ev sf vs C (mkM (Cb ++ K) acc (a :: st1 ++ R) ev x t h1 gm1) w1 (sto s1) h1 st1 r (cutS (length vs) s').
Proof.
  intros HE HC HO HF HV. destruct (conf_all _ _ _ _ _ _ _ _ _ _ _ _ _ HF) as (HL & SL & Hsf & Ht & Hx & Hb & HI & HS & HEN). subst sz.
  pose proof (conf_bind _ _ _ _ _ _ _ _ _ _ _ _ _ _ _ HF HV) as HF2.
  apply (out_pop mp p P base F _ _ CO K R x t ev sf vs [zlen st1 + 1] [a] st1 C); auto.
  { intros z [<- | []]. lia. }
  eapply (IH b _ _ _ _ _ HE _ _ _ _ _ _ HC w1 h1 gm1 (a :: st1) R x t ev acc HF2).
  apply addPop_ok; auto using zlen_ge0. lia.
Qed.
Lemma as_vars_len es : forall ns, as_vars es = Some ns -> length es = length ns.
Proof.
  induction es as [|e r IHr]; cbn; intros ns H. { now injection H as <-. }
  destruct (as_var e); try discriminate. destruct (as_vars r); try discriminate. injection H as <-. cbn. f_equal. auto.
Qed.
Lemma conf_alloc s cl w h gm st R x t ev sf sz vs b m : conf s cl w h gm st R x t ev sf sz vs ->
  brel F (w ++ [length h]) (sto s ++ [b]) (h ++ [m]) b m ->
  conf (mkS (loc s) (sto s ++ [b]) (gl s)) cl (w ++ [length h]) (h ++ [m]) gm st R x t ev sf sz vs /\
  vrel (w ++ [length h]) (sto s ++ [b]) (h ++ [m]) (SLoc (length (sto s))) (VPtr (length h)).
Proof.
  intros HF HB. destruct (conf_all _ _ _ _ _ _ _ _ _ _ _ _ _ HF) as (HL & SL & Hsf & Ht & Hx & Hb & HI & HS & HEN).
  pose proof (ext_alloc w (sto s) h b m) as E. split.
  - eapply (conf_next _ _ _ _ _ _ _ _ _ _ _ _ _ (mkS (loc s) (sto s ++ [b]) (gl s))); eauto; cbn [sto loc gl].
    + now apply Inv_alloc.
    + eapply stk_mono; eauto.
    + apply keep_refl.
  - exists (length h). split; auto. rewrite nth_error_app2 by (rewrite (i_len _ _ _ _ _ _ _ _ HI); lia).
    rewrite (i_len _ _ _ _ _ _ _ _ HI), Nat.sub_diag. reflexivity.
Qed.
(** closures that are not recursive, or the whole of a letrec of one *)
Lemma clos_step es fv cl s ns vals K sf sz vs lbl C O w h gm st R x t ev acc : (1 <= n)%nat ->
  as_vars es = Some ns -> vars fv cl (loc s) ns = Some vals ->
  cmp_rl K fv sf sz vs es (Kclosure lbl (zlen es) :: C) O ->
  conf s cl w h gm st R x t ev sf sz vs ->
  exists w1 h1 gm1 st1 a, let s1 := mkS (loc s) (sto s ++ [Clo lbl vals]) (gl s) in
    ext w (sto s) h w1 (sto s1) h1 /\ conf s1 cl w1 h1 gm1 st1 R x t ev sf sz vs /\
    keep vs st st1 /\ vrel w1 (sto s1) h1 (SLoc (length (sto s))) a /\
    J (mkM (O ++ K) acc (st ++ R) ev x t h gm) (mkM (C ++ K) a (st1 ++ R) ev x t h1 gm1).
Proof.
  intros Hn HA HV HC HF.
  destruct (clos_args es fv cl s ns vals K sf sz vs _ C O w h gm st R x t ev acc Hn HA HV HC eq_refl I HF)
    as (w1 & h1 & gm1 & avs & st1 & b & q & A1 & A2 & A3 & A4 & A5 & A6 & A7).
  assert (HB : brel F (w1 ++ [length h1]) (sto s ++ [Clo lbl vals]) (h1 ++ [mkBlock Closure_tag (VCode lbl :: avs)]) (Clo lbl vals) (mkBlock Closure_tag (VCode lbl :: avs))).
  { exists avs. split; auto. eapply vrels_mono; [apply ext_alloc | exact A4]. }
  destruct (conf_alloc _ _ _ _ _ _ _ _ _ _ _ _ _ _ _ A2 HB) as (D1 & D2).
  exists (w1 ++ [length h1]), (h1 ++ [mkBlock Closure_tag (VCode lbl :: avs)]), gm1, st1, (VPtr (length h1)).
  cbn zeta. cbn [sto]. split; [eapply ext_trans; [exact A1 | apply ext_alloc]|]. split; auto. split; auto. split; auto.
  eapply J_trans; [exact A7|]. eapply J_step_l; [|apply J_refl]. cbn [step pc accu sp]. rewrite <- A5, A6.
  now rewrite (ztake_app avs (st1 ++ R) (zlen avs)) by reflexivity.
Qed.
Lemma closrec_step es fv cl s ns vals K sf sz vs lbl C O w h gm st R x t ev acc : (1 <= n)%nat ->
  as_vars es = Some ns -> vars fv cl (loc s) ns = Some vals ->
  cmp_rl K fv sf sz vs es (Kclosurerec lbl (1 + zlen es) :: C) O ->
  conf s cl w h gm st R x t ev sf sz vs ->
  exists w1 h1 gm1 st1 a, let s1 := mkS (loc s) (sto s ++ [Clo lbl (SLoc (length (sto s)) :: vals)]) (gl s) in
    ext w (sto s) h w1 (sto s1) h1 /\ conf s1 cl w1 h1 gm1 st1 R x t ev sf sz vs /\
    keep vs st st1 /\ vrel w1 (sto s1) h1 (SLoc (length (sto s))) a /\
    J (mkM (O ++ K) acc (st ++ R) ev x t h gm) (mkM (C ++ K) a (st1 ++ R) ev x t h1 gm1).
Proof.
  intros Hn HA HV HC HF.
  destruct (clos_args es fv cl s ns vals K sf sz vs _ C O w h gm st R x t ev acc Hn HA HV HC eq_refl I HF)
    as (w1 & h1 & gm1 & avs & st1 & b & q & A1 & A2 & A3 & A4 & A5 & A6 & A7).
  destruct (conf_all _ _ _ _ _ _ _ _ _ _ _ _ _ A2) as (_ & _ & _ & _ & _ & _ & HI & _).
  set (bl := Clo lbl (SLoc (length (sto s)) :: vals)). set (m := mkBlock Closure_tag (VCode lbl :: VPtr (length h1) :: avs)).
  assert (HB : brel F (w1 ++ [length h1]) (sto s ++ [bl]) (h1 ++ [m]) bl m).
  { exists (VPtr (length h1) :: avs). split; auto. constructor; [|eapply vrels_mono; [apply ext_alloc | exact A4]].
    exists (length h1). split; auto. rewrite nth_error_app2 by (rewrite (i_len _ _ _ _ _ _ _ _ HI); lia).
    rewrite (i_len _ _ _ _ _ _ _ _ HI), Nat.sub_diag. reflexivity. }
  destruct (conf_alloc _ _ _ _ _ _ _ _ _ _ _ _ _ _ _ A2 HB) as (D1 & D2).
  exists (w1 ++ [length h1]), (h1 ++ [m]), gm1, st1, (VPtr (length h1)).
  cbn zeta. cbn [sto]. split; [eapply ext_trans; [exact A1 | apply ext_alloc]|]. split; auto. split; auto. split; auto.
  eapply J_trans; [exact A7|]. eapply J_step_l; [|apply J_refl]. cbn [step pc accu sp]. rewrite <- A5.
  replace (1 + zlen avs - 1) with (zlen avs) by lia. rewrite A6.
  now rewrite (ztake_app avs (st1 ++ R) (zlen avs)) by reflexivity.
Qed.

(** several functions: first the blocks *)
Fixpoint upto (sz : Z) (k : nat) : list Z := match k with O => [] | S k => (sz + 1) :: upto (sz + 1) k end.
Definition dummy (c : Z * list Z) : sblock := Blk 0 (repeat (SNum 0) (length (snd c) + 1)).
Lemma upto_nth k : forall sz j, (j < k)%nat -> nth_error (upto sz k) j = Some (sz + 1 + Z.of_nat j).
Proof. induction k as [|k IHk]; intros sz j H; [lia|]. destruct j as [|j]; cbn [upto nth_error]. { f_equal. lia. } rewrite IHk by lia. f_equal. lia. Qed.
Lemma upto_in k : forall sz z, In z (upto sz k) -> sz < z.
Proof. induction k as [|k IHk]; intros sz z H; [destruct H|]. destruct H as [<- | H]; try lia. apply IHk in H. lia. Qed.
Lemma upto_len k : forall sz, length (upto sz k) = k.
Proof. induction k; intros; cbn; auto. Qed.
Lemma as_clo_inv e lbl ns : as_clo e = Some (lbl, ns) -> exists fre, e = Lprim (Pclosure lbl (zlen ns)) fre /\ as_vars fre = Some ns.
Proof.
  unfold as_clo. destruct e; try discriminate. destruct p0; try discriminate. destruct (as_vars es) as [l|] eqn:E; [|discriminate].
  destruct (sz =? Z.of_nat (length l)) eqn:E2; [|discriminate]. intros [= -> ->]. exists es. split; auto. f_equal. f_equal. unfold zlen. lia.
Qed.
Lemma as_clos_len l : forall cs, as_clos l = Some cs -> length l = length cs.
Proof.
  induction l as [|e r IHr]; cbn; intros ns H. { now injection H as <-. }
  destruct (as_clo e); try discriminate. destruct (as_clos r); try discriminate. injection H as <-. cbn. f_equal. auto.
Qed.
Lemma dummies w s h k : Forall2 (vrel w s h) (repeat (SNum 0) k) (repeat (VInt 0) k).
Proof. induction k; cbn [repeat]; constructor; auto. reflexivity. Qed.
Lemma init_sim fv cl K sf na args b C : forall l cs s sz vs O w h gm st R x t ev acc, as_clos l = Some cs ->
  cmp_init K fv sf na sz vs l args b C O -> conf s cl w h gm st R x t ev sf sz vs ->
  exists O' w1 h1 T acc',
    let s1 := mkS (loc s ++ map SLoc (seq (length (sto s)) (length cs))) (sto s ++ map dummy cs) (gl s) in
    cmp_args K fv sf na (sz + zlen l) (vs ++ upto sz (length l)) na args b C O' /\
    ext w (sto s) h w1 (sto s1) h1 /\ conf s1 cl w1 h1 gm (T ++ st) R x t ev sf (sz + zlen l) (vs ++ upto sz (length l)) /\
    zlen T = zlen l /\ J (mkM (O ++ K) acc (st ++ R) ev x t h gm) (mkM (O' ++ K) acc' ((T ++ st) ++ R) ev x t h1 gm).
Proof.
  induction l as [|e l IHl]; intros cs s sz vs O w h gm st R x t ev acc HA HC HF.
  - cbn in HA. injection HA as <-. inversion HC as [? ? ? ? ? ? ? ? HC1|]; subst. exists O, w, h, [], acc. cbn zeta. cbn [length seq map upto].
    rewrite !app_nil_r, zlen_nil, Z.add_0_r. cbn [app]. split; auto. split; [apply ext_refl|]. split; [now destruct s|]. split; auto. apply J_refl.
  - cbn [as_clos] in HA. destruct (as_clo e) as [(lbl & ns)|] eqn:EC; [|discriminate]. destruct (as_clos l) as [cs2|] eqn:ECS; [|discriminate].
    injection HA as <-. apply as_clo_inv in EC as (fre & -> & EV).
    inversion HC as [|? ? ? ? ? ? ? ? ? ? ? C1 HC1]; subst.
    set (bl := dummy (lbl, ns)). set (m := mkBlock 0 (repeat (VInt 0) (length ns + 1))).
    assert (HB : brel F (w ++ [length h]) (sto s ++ [bl]) (h ++ [m]) bl m).
    { exists (repeat (VInt 0) (length ns + 1)). split; auto. cbn [snd]. apply dummies. }
    destruct (conf_alloc _ _ _ _ _ _ _ _ _ _ _ _ _ _ _ HF HB) as (D1 & D2).
    pose proof (conf_bind _ _ _ _ _ _ _ _ _ _ _ _ _ _ _ D1 D2) as HF2. cbn [loc sto gl] in HF2.
    destruct (IHl cs2 _ _ _ _ _ _ _ _ _ _ _ _ (VPtr (length h)) eq_refl HC1 HF2) as (O' & w1 & h1 & T & acc' & B1 & B2 & B3 & B4 & B5).
    cbn zeta in *. cbn [loc sto gl] in *.
    exists O', w1, h1, (T ++ [VPtr (length h)]), acc'. rewrite zlen_cons. cbn [length upto seq map].
    rewrite app_length in *. cbn [length] in *.
    replace (sz + (1 + zlen l)) with (sz + 1 + zlen l) by lia.
    replace (length (sto s) + 1)%nat with (S (length (sto s))) in * by lia.
    rewrite <- !app_assoc in *. cbn [app] in *.
    split; [exact B1|]. split. { eapply ext_trans; [apply ext_alloc | exact B2]. } split; [exact B3|].
    split; [rewrite zlen_app, B4; change (zlen [VPtr (length h)]) with 1; lia|].
    eapply J_step_l. { cbn [step pc]. unfold alloc. cbn [heap sp env extra trap glob]. replace (Z.to_nat (zlen ns + 1)) with (length ns + 1)%nat by (unfold zlen; lia). reflexivity. }
    eapply J_step_l; [reflexivity|]. cbn [accu sp env extra trap heap glob]. exact B5.
Qed.
(** then the closures *)
Lemma set_nth_mid {A} (a : list A) y b z : set_nth (a ++ y :: b) (length a) z = a ++ z :: b.
Proof. induction a; cbn; auto. now f_equal. Qed.
Lemma args_sim fv cl K sf na vs b C sigma ls g sz dp : (1 <= n)%nat ->
  forall args cs bs1 bs2 i O w h gm st R x t ev acc, as_clos args = Some cs -> clos_blocks fv cl ls cs = Some bs2 ->
  cmp_args K fv sf na sz vs i args b C O -> conf (mkS ls (sigma ++ bs1 ++ map dummy cs) g) cl w h gm st R x t ev sf sz vs ->
  na = i + zlen bs1 -> i = zlen args ->
  (forall j, (j < length bs1 + length args)%nat -> nth_error ls (dp + j) = Some (SLoc (length sigma + j)) /\ nth_error vs (dp + j) = Some (sz - na + 1 + Z.of_nat j)) ->
  exists O' w1 h1 gm1 st1 acc', cmp K fv sf sz vs b (addPop na C) O' /\
    ext w (sigma ++ bs1 ++ map dummy cs) h w1 (sigma ++ bs1 ++ bs2) h1 /\
    conf (mkS ls (sigma ++ bs1 ++ bs2) g) cl w1 h1 gm1 st1 R x t ev sf sz vs /\ keep vs st st1 /\
    J (mkM (O ++ K) acc (st ++ R) ev x t h gm) (mkM (O' ++ K) acc' (st1 ++ R) ev x t h1 gm1).
Proof.
  intros Hn. induction args as [|e args IHa]; intros cs bs1 bs2 i O w h gm st R x t ev acc HA HB HC HF Hna Hi HN.
  - cbn in HA. injection HA as <-. cbn in HB. injection HB as <-. inversion HC as [? ? ? ? ? ? ? ? HC1|]; subst.
    exists O, w, h, gm, st, acc. split; auto. split; [apply ext_refl|]. split; auto. split; [apply keep_refl|]. apply J_refl.
  - cbn [as_clos] in HA. destruct (as_clo e) as [(lbl & ns)|] eqn:EC; [|discriminate]. destruct (as_clos args) as [cs2|] eqn:ECS; [|discriminate].
    injection HA as <-. apply as_clo_inv in EC as (fre & -> & EV). cbn [clos_blocks] in HB.
    destruct (vars fv cl ls ns) as [vals|] eqn:EVS; [|discriminate]. destruct (clos_blocks fv cl ls cs2) as [bs3|] eqn:ECB; [|discriminate]. injection HB as <-.
    inversion HC as [|? ? ? ? ? ? ? ? ? ? ? C1 ? HC1 HC2]; subst.
    inversion HC2 as [ |  |  |  |  |  |  |  |  |  |  |  |  |  |  |  |  |  |  |  |  |  |  |  |  |  | ? ? ? ? ? ? ? ? HC3 |  |  |  |  |  |  |  |  |  |  |  |  |  |  |  |  |  |  |  |  |  |  |  |  |  |  |  |  |  |  | ]; subst.
    destruct (clos_args fre fv cl (mkS ls (sigma ++ bs1 ++ map dummy ((lbl, ns) :: cs2)) g) ns vals K sf sz vs _ _ O w h gm st R x t ev acc Hn EV EVS HC3 eq_refl I HF)
      as (w1 & h1 & gm1 & avs & st1 & a0 & q & A1 & A2 & A3 & A4 & A5 & A6 & A7). cbn [sto] in *.
    pose proof (as_vars_len _ _ EV) as LE. rewrite zlen_cons in *.
    set (m := mkBlock Closure_tag (VCode lbl :: avs)).
    destruct (conf_all _ _ _ _ _ _ _ _ _ _ _ _ _ A2) as (HL1 & SL1 & Hsf1 & Ht1 & Hx1 & Hb1 & HI1 & HS1 & HEN1). cbn [sto loc gl] in *.
    destruct (HN (length bs1)) as (N1 & N2); [cbn; lia|].
    destruct (stk_nth _ _ _ _ _ _ _ _ _ _ HS1 N1 N2) as (a & S1 & (ad & S2 & ->) & S3).
    assert (NS : nth_error (sigma ++ bs1 ++ map dummy ((lbl, ns) :: cs2)) (length sigma + length bs1) = Some (Blk 0 (repeat (SNum 0) (length ns + 1)))).
    { rewrite app_assoc, nth_error_app2 by (rewrite app_length; lia). rewrite app_length, Nat.sub_diag. reflexivity. }
    destruct (i_blk _ _ _ _ _ _ _ _ HI1 _ _ NS) as (ad' & m0 & I1 & I2 & (davs & -> & I3)). rewrite S2 in I1. injection I1 as <-.
    assert (LD : length davs = (length ns + 1)%nat) by (rewrite <- (F2len I3), repeat_length; reflexivity).
    pose proof (Inv_garbage _ _ _ _ _ _ _ _ [m] HI1) as HI2. pose proof (ext_garbage w1 (sigma ++ bs1 ++ map dummy ((lbl, ns) :: cs2)) h1 [m]) as E2.
    assert (I2' : nth_error (h1 ++ [m]) ad = Some (mkBlock 0 davs)) by (rewrite nth_error_app1; auto; apply nth_error_Some; congruence).
    destruct (Inv_replace _ _ _ _ _ _ _ _ _ _ _ _ _ (Clo lbl vals) m HI2 NS S2 I2') as (E3 & HI3).
    { exists avs. split; auto. eapply vrels_mono; [exact E2 | exact A4]. }
    assert (SE : set_nth (sigma ++ bs1 ++ map dummy ((lbl, ns) :: cs2)) (length sigma + length bs1) (Clo lbl vals) = sigma ++ (bs1 ++ [Clo lbl vals]) ++ map dummy cs2).
    { rewrite app_assoc, <- app_length. cbn [map]. rewrite set_nth_mid. now rewrite <- !app_assoc. }
    rewrite SE in E3, HI3. pose proof (ext_trans _ _ _ _ _ _ _ _ _ E2 E3) as E4.
    assert (HF3 : conf (mkS ls (sigma ++ (bs1 ++ [Clo lbl vals]) ++ map dummy cs2) g) cl w1 (set_nth (h1 ++ [m]) ad m) gm1 st1 R x t ev sf sz vs).
    { eapply (conf_next _ _ _ _ _ _ _ _ _ _ _ _ _ (mkS ls (sigma ++ (bs1 ++ [Clo lbl vals]) ++ map dummy cs2) g) _ _ _ _ A2); cbn [sto loc gl]; eauto.
      - eapply stk_mono; eauto.
      - apply keep_refl. }
    assert (NA2 : 1 + zlen args + zlen bs1 = zlen args + zlen (bs1 ++ [Clo lbl vals])) by (rewrite zlen_app; change (zlen [Clo lbl vals]) with 1; lia).
    replace (1 + zlen args - 1) with (zlen args) in HC1 by lia.
    destruct (IHa cs2 (bs1 ++ [Clo lbl vals]) bs3 (zlen args) C1 _ _ _ _ _ _ _ _ unit_val eq_refl ECB HC1 HF3 NA2 eq_refl)
      as (O' & w4 & h4 & gm4 & st4 & acc4 & B1 & B2 & B3 & B4 & B5).
    { intros j Hj. rewrite app_length in Hj. cbn [length] in *. apply HN. lia. }
    rewrite <- !app_assoc in *. cbn [app] in *.
    exists O', w4, h4, gm4, st4, acc4. split; auto. split. { eapply ext_trans; [exact A1|]. eapply ext_trans; [exact E4 | exact B2]. }
    split; auto. split; [eauto using keep_trans|].
    eapply J_trans; [exact A7|]. eapply J_trans; [|exact B5].
    eapply J_step_l. { cbn [step pc accu sp]. replace (zlen ns) with (zlen avs) by (unfold zlen in *; lia). rewrite A6.
      rewrite (ztake_app avs (st1 ++ R) (zlen avs)) by reflexivity. unfold alloc. reflexivity. }
    eapply J_step_l; [reflexivity|]. cbn [accu sp env extra trap heap glob].
    eapply J_step_l. { cbn [step pc sp]. destruct (1 + zlen args <? 0) eqn:E; [pose proof (zlen_ge0 args); lia|].
      replace (Z.to_nat (1 + zlen args)) with (S (Z.to_nat (zlen st1 - (sz - (1 + zlen args + zlen bs1) + 1 + Z.of_nat (length bs1))))) by (unfold zlen in *; lia).
      cbn [nth_error]. rewrite nth_error_app1 by (apply nth_error_Some; congruence). rewrite S1. reflexivity. }
    eapply J_step_l; [|apply J_refl]. unfold set_acc. cbn [accu sp env extra trap heap glob step pc]. unfold Pupdate.
    rewrite (Z.eqb_refl UPDATE). unfold update_block. cbn [nth_error]. fold m. rewrite I2'. rewrite nth_error_app2, Nat.sub_diag by lia. cbn [nth_error]. fold m.
    cbn [fields]. replace (Nat.eqb (length davs) (length (fields m))) with true; [reflexivity|].
    symmetry. apply Nat.eqb_eq. cbn [m fields length]. unfold zlen in *. lia.
Qed.
Lemma map_sloc m k : map (fun i => SLoc (m + i)) (seq 0 k) = map SLoc (seq m k).
Proof.
  assert (G : forall a, map (fun i => SLoc (m + i)) (seq a k) = map SLoc (seq (m + a) k)).
  { induction k as [|k IHk]; intros a; cbn [seq map]; auto. f_equal. rewrite IHk. f_equal. f_equal. lia. }
  rewrite G, Nat.add_0_r. reflexivity.
Qed.
Lemma t_letrec args b : simE (S n) (Lletrec args b).
Proof.
  start. assert (DP : length (loc s) = length vs) by (eapply conf_dp; eauto). cbn zeta in HE.
  destruct (as_clos args) as [cs|] eqn:EC; [|discriminate]. destruct (clos_ok (length (loc s)) cs) eqn:EO; [|discriminate].
  rewrite map_sloc in HE.
  destruct (clos_blocks fv cl _ cs) as [bs|] eqn:EB; [|discriminate]. rewrite DP in HE.
  destruct (eval n fv cl b _) as [(r2 & s2)|] eqn:E1; [|discriminate]. cbn [cut] in HE. injection HE as <- <-.
  change (mkS (firstn (length vs) (loc s2)) (sto s2) (gl s2)) with (cutS (length vs) s2).
  assert (Hn : (1 <= n)%nat) by (destruct n; [discriminate | lia]).
  inversion HC as [ |  |  |  |  |  |  |  |  |  | ? ? ? lbl csz rest ? ? Cb ? HC1 HC2 | ? ? ? lbl csz k rest ? ? Cb ? NE HC1 HC2 | ? ? ? lbl csz ? ? Cb HC1 | ? ? ? ? ? ? ? NE HC1 |  |  |  |  |  |  |  |  |  |  |  |  |  |  |  |  |  |  |  |  |  |  |  |  |  |  |  |  |  |  |  |  |  |  |  |  |  |  |  |  |  |  |  | ]; subst.
  - cbn [as_clos] in EC. destruct (as_clo _) as [(lbl' & ns)|] eqn:E2; [|discriminate]. injection EC as <-.
    apply as_clo_inv in E2 as (fre & E2 & EV). injection E2 as <- -> <-.
    cbn [as_vars as_var] in EV. destruct (as_vars rest) as [ns'|] eqn:EV'; [|discriminate]. injection EV as <-.
    cbn [clos_ok] in EO. cbn [length seq map clos_blocks vars] in EB, E1.
    destruct (var fv cl _ (zlen vs)) as [v0|] eqn:E0; [|discriminate].
    assert (v0 = SLoc (length (sto s))). { unfold var in E0. destruct (zlen vs <? 0) eqn:E; [pose proof (zlen_ge0 vs); lia|].
      rewrite nth_error_app2 in E0 by (unfold zlen; lia). replace (Z.to_nat (zlen vs) - length (loc s))%nat with 0%nat in E0 by (unfold zlen; lia). now injection E0 as <-. }
    subst v0. destruct (vars fv cl _ ns') as [vals|] eqn:EVS; [|discriminate]. injection EB as <-.
    apply vars_snoc in EVS; [|exact EO]. cbn [length] in HC2.
    assert (EZ : zlen (zlen vs :: ns') = 1 + zlen rest) by (rewrite zlen_cons; unfold zlen; now rewrite (as_vars_len _ _ EV')). rewrite EZ in HC2.
    destruct (closrec_step rest fv cl s ns' vals K sf _ vs lbl _ O w h gm st R x t ev acc Hn EV' EVS HC2 HF) as (w1 & h1 & gm1 & st1 & a & A1 & A2 & A3 & A4 & A5).
    eapply out_seq; [|exact A1|exact A3|].
    { eapply J_trans; [exact A5|]. eapply J_step_l; [reflexivity|]. apply J_refl. }
    eapply bind_body; [exact E1 | exact HC1 | exact HO | exact A2 | exact A4].
  - cbn [as_clos] in EC. destruct (as_clo _) as [(lbl' & ns)|] eqn:E2; [|discriminate]. injection EC as <-.
    apply as_clo_inv in E2 as (fre & E2 & EV). injection E2 as <- -> <-. pose proof EV as EV0.
    cbn [as_vars as_var] in EV. destruct (as_vars rest) as [ns'|] eqn:EV'; [|discriminate]. injection EV as <-.
    cbn [clos_ok] in EO. cbn [length seq map clos_blocks] in EB, E1.
    destruct (vars fv cl _ (k :: ns')) as [vals|] eqn:EVS; [|discriminate]. injection EB as <-.
    apply vars_snoc in EVS.
    2: { cbn [forallb]. rewrite EO, andb_true_r. apply negb_true_iff, Z.eqb_neq. rewrite DP. exact NE. }
    assert (EZ : zlen (k :: ns') = zlen (Lvar k :: rest)) by (unfold zlen; cbn [length]; now rewrite (as_vars_len _ _ EV')). rewrite EZ in HC2.
    destruct (clos_step _ fv cl s _ vals K sf _ vs lbl _ O w h gm st R x t ev acc Hn EV0 EVS HC2 HF) as (w1 & h1 & gm1 & st1 & a & A1 & A2 & A3 & A4 & A5).
    eapply out_seq; [|exact A1|exact A3|].
    { eapply J_trans; [exact A5|]. eapply J_step_l; [reflexivity|]. apply J_refl. }
    eapply bind_body; [exact E1 | exact HC1 | exact HO | exact A2 | exact A4].
  - cbn [as_clos] in EC. destruct (as_clo _) as [(lbl' & ns)|] eqn:E2; [|discriminate]. injection EC as <-.
    apply as_clo_inv in E2 as (fre & E2 & EV). injection E2 as <- -> <-. cbn in EV. injection EV as <-.
    cbn [length seq map clos_blocks vars] in EB, E1. injection EB as <-.
    assert (HC2 : cmp_rl K fv sf (zlen st) vs [] (Kclosure lbl (zlen (@nil lam)) :: Kpush :: Cb) (Kclosure lbl 0 :: Kpush :: Cb)) by constructor.
    destruct (clos_step [] fv cl s [] [] K sf _ vs lbl _ _ w h gm st R x t ev acc Hn eq_refl eq_refl HC2 HF) as (w1 & h1 & gm1 & st1 & a & A1 & A2 & A3 & A4 & A5).
    eapply out_seq; [|exact A1|exact A3|].
    { eapply J_trans; [exact A5|]. eapply J_step_l; [reflexivity|]. apply J_refl. }
    eapply bind_body; [exact E1 | exact HC1 | exact HO | exact A2 | exact A4].
  - destruct (init_sim fv cl K sf (zlen args) args b C args cs s _ vs O w h gm st R x t ev acc EC HC1 HF) as (O1 & w1 & h1 & T & acc1 & A1 & A2 & A3 & A4 & A5).
    cbn zeta in *. cbn [sto] in *. pose proof (as_clos_len _ _ EC) as LC.
    destruct (args_sim fv cl K sf (zlen args) _ b C (sto s) _ (gl s) (zlen st + zlen args) (length vs) Hn args cs [] bs (zlen args) O1 _ _ _ _ _ _ _ _ acc1 EC EB A1 A3)
      as (O2 & w2 & h2 & gm2 & st2 & acc2 & B1 & B2 & B3 & B4 & B5); [rewrite zlen_nil; lia | reflexivity | |].
    { intros j Hj. cbn [length] in Hj. split.
      - rewrite nth_error_app2 by lia. replace (length vs + j - length (loc s))%nat with j by lia.
        rewrite nth_error_map. rewrite (nth_error_nth' _ 0%nat) by (rewrite seq_length; lia). rewrite seq_nth by lia. reflexivity.
      - rewrite nth_error_app2 by lia. replace (length vs + j - length vs)%nat with j by lia. rewrite upto_nth by lia. f_equal. lia. }
    cbn [app] in *.
    apply keep_drop in B4 as (T2 & st3 & -> & LT & B4). 2: { intros z Hz. now apply upto_in in Hz. }
    eapply out_seq; [eapply J_trans; [exact A5 | exact B5] | eapply ext_trans; [exact A2 | exact B2] | exact B4 |].
    pose proof B4 as (LK & _).
    apply (out_pop mp p P base F _ _ CO K R x t ev sf vs (upto (zlen st) (length args)) T2 st3 C); auto.
    { eapply keep_slots; eauto. }
    { intros z Hz. apply upto_in in Hz. lia. } { lia. } { now rewrite LK. }
    rewrite LT, A4. apply (IH b _ _ _ _ _ E1 _ _ _ _ _ _ B1 w2 h2 gm2 (T2 ++ st3) R x t ev acc2 B3).
    apply addPop_ok; auto using zlen_ge0.
Qed.
End Defs.
