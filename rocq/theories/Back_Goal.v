(** What the machine does with the result of a term, according to what the code continues with. *)
From Verif Require Import Base Opcodes Back_Model Back_Spec Back_Rel.
From Verif Require Import Back_Sim.

(** ** Stack slots, numbered from the bottom *)
Definition slot (st : list value) (z : Z) : option value := nth_error st (Z.to_nat (zlen st - z)).
Lemma zlen_app {A} (a b : list A) : zlen (a ++ b) = zlen a + zlen b.
Proof. unfold zlen. rewrite app_length. lia. Qed.
Lemma zlen_cons {A} (a : A) b : zlen (a :: b) = 1 + zlen b.
Proof. unfold zlen. cbn [length]. lia. Qed.
Lemma zlen_nil {A} : zlen (@nil A) = 0.
Proof. reflexivity. Qed.
Lemma zlen_ge0 {A} (a : list A) : 0 <= zlen a.
Proof. unfold zlen. lia. Qed.
Lemma zlen_0 {A} (a : list A) : zlen a = 0 -> a = [].
Proof. destruct a; auto. rewrite zlen_cons. pose proof (zlen_ge0 a0). lia. Qed.
Lemma slot_app a b z : z <= zlen b -> slot (a ++ b) z = slot b z.
Proof.
  intros H. unfold slot. rewrite zlen_app. unfold zlen in *. rewrite nth_error_app2 by lia. f_equal. lia.
Qed.
Lemma slot_cons a b z : z <= zlen b -> slot (a :: b) z = slot b z.
Proof. apply (slot_app [a]). Qed.
Lemma slot_top a b : slot (a :: b) (zlen b + 1) = Some a.
Proof. unfold slot. rewrite zlen_cons. replace (1 + zlen b - (zlen b + 1)) with 0 by lia. reflexivity. Qed.

Definition keep (vs : list Z) (a b : list value) : Prop :=
  zlen b = zlen a /\ forall z, 1 <= z <= zlen a -> ~ In z vs -> slot b z = slot a z.
Lemma keep_refl vs a : keep vs a a.
Proof. split; auto. Qed.
Lemma keep_trans vs a b c : keep vs a b -> keep vs b c -> keep vs a c.
Proof. intros (A & B) (C & D). split; [congruence|]. intros z Hz N. rewrite D, B; auto. lia. Qed.
Lemma keep_pop1 vs a st st1 : keep vs (a :: st) st1 -> (forall z, In z vs -> z <= zlen st) ->
  exists st', st1 = a :: st' /\ keep vs st st'.
Proof.
  intros (L & H) B. destruct st1 as [|a1 st']; [unfold zlen in L; discriminate|].
  rewrite !zlen_cons in L. exists st'. assert (L' : zlen st' = zlen st) by lia.
  assert (E : a1 = a).
  { pose proof (H (zlen st + 1)) as H1. rewrite slot_top in H1. rewrite <- L', slot_top in H1.
    assert (E : Some a1 = Some a); [|now injection E]. apply H1.
    - rewrite zlen_cons. pose proof (zlen_ge0 st). lia.
    - intros Hi. apply B in Hi. lia. }
  subst a1. split; auto. split; auto. intros z Hz N. specialize (H z). rewrite !slot_cons in H by lia.
  apply H; auto. rewrite zlen_cons. lia.
Qed.
Lemma keep_pop vs T st st1 : keep vs (T ++ st) st1 -> (forall z, In z vs -> z <= zlen st) ->
  exists st', st1 = T ++ st' /\ keep vs st st'.
Proof.
  revert st1. induction T as [|a T IH]; cbn; intros st1 H B; eauto.
  apply keep_pop1 in H as (st2 & -> & H). 2: { intros z Hz. apply B in Hz. rewrite zlen_app. pose proof (zlen_ge0 T). lia. }
  apply IH in H as (st' & -> & H); eauto.
Qed.
(** dropping words some of which are slots *)
Lemma keep_drop vs vs2 T st st1 : keep (vs ++ vs2) (T ++ st) st1 -> (forall z, In z vs2 -> zlen st < z) ->
  exists T' st', st1 = T' ++ st' /\ zlen T' = zlen T /\ keep vs st st'.
Proof.
  intros (L & H) B. rewrite zlen_app in L. exists (firstn (length T) st1), (skipn (length T) st1).
  assert (L1 : (length T <= length st1)%nat) by (unfold zlen in L; lia).
  assert (Hf : zlen (firstn (length T) st1) = zlen T) by (unfold zlen; rewrite firstn_length_le; auto).
  assert (Hs : zlen (skipn (length T) st1) = zlen st) by (unfold zlen in *; rewrite skipn_length; lia).
  split; [now rewrite firstn_skipn|]. split; auto. split; auto.
  intros z Hz N. rewrite <- (slot_app (firstn (length T) st1) _ z) by lia. rewrite firstn_skipn.
  rewrite H; [apply slot_app; lia| |].
  - rewrite zlen_app. pose proof (zlen_ge0 T). lia.
  - rewrite in_app_iff. intros [Hi | Hi]; auto. apply B in Hi. lia.
Qed.

Lemma F2len {A B} (R : A -> B -> Prop) l l' : Forall2 R l l' -> length l = length l'.
Proof. induction 1; cbn; auto. Qed.
Arguments F2len {A B R l l'}.

Section Goal.
Variable mp : prims.
Variable p : sprims.
Variable P : list instr.
Variable base : Z.
Variable F : Z -> option fundef.

Notation step := (step mp P base).
Notation J := (J mp P base).
Notation vrel := (vrel F).
Notation Inv := (Inv F mp p).

Definition slots (vs : list Z) (st : list value) : Prop := NoDup vs /\ forall z, In z vs -> 1 <= z <= zlen st.
Definition stk (w : world) (s : store) (h : heap_t) (vs : list Z) (ls : list sval) (st : list value) : Prop :=
  slots vs st /\ Forall2 (fun z v => exists a, slot st z = Some a /\ vrel w s h v a) vs ls.
Lemma stk_slots w s h vs ls st : stk w s h vs ls st -> slots vs st.
Proof. now intros []. Qed.
Lemma slots_le vs st : slots vs st -> forall z, In z vs -> z <= zlen st.
Proof. intros (_ & H) z Hz. apply H in Hz. lia. Qed.
Lemma stk_mono w s h w' s' h' vs ls st : ext w s h w' s' h' -> stk w s h vs ls st -> stk w' s' h' vs ls st.
Proof.
  intros E (A & B). split; auto. induction B as [|z v vs ls (a & H1 & H2) B IH]; constructor.
  - exists a. split; auto. eapply vrel_mono; eauto.
  - apply IH. destruct A as (A & A2). inversion A; subst. split; auto. intros; apply A2; now right.
Qed.
Lemma Forall2_weak {A B} (R R' : A -> B -> Prop) l l' : (forall a b, In a l -> R a b -> R' a b) -> Forall2 R l l' -> Forall2 R' l l'.
Proof. intros H H2. induction H2; constructor; auto. apply H; auto. now left. apply IHForall2. intros; apply H; auto. now right. Qed.
Lemma stk_push w s h vs ls st T : stk w s h vs ls st -> stk w s h vs ls (T ++ st).
Proof.
  intros ((A & A2) & B). split.
  - split; auto. intros z Hz. apply A2 in Hz. rewrite zlen_app. pose proof (zlen_ge0 T). lia.
  - eapply Forall2_weak; [|exact B]. intros z v Hz (a & H1 & H2). exists a. split; auto. rewrite slot_app; auto.
    apply A2 in Hz. lia.
Qed.
Lemma stk_bind w s h vs ls st v a : stk w s h vs ls st -> vrel w s h v a -> stk w s h (vs ++ [zlen st + 1]) (ls ++ [v]) (a :: st).
Proof.
  intros H Hv. pose proof (stk_push _ _ _ _ _ _ [a] H) as (_ & H2). destruct H as ((A & A2) & B). split.
  - split. { apply NoDup_snoc; auto. intros Hi. apply A2 in Hi. lia. }
    intros z Hz. apply in_app_iff in Hz. rewrite zlen_cons. pose proof (zlen_ge0 st).
    destruct Hz as [Hz | [<- | []]]; [apply A2 in Hz; lia | lia].
  - apply Forall2_app; auto. constructor; auto. exists a. split; auto. apply slot_top.
Qed.
Lemma stk_unbind w s h vs vs2 ls T st : stk w s h (vs ++ vs2) ls (T ++ st) -> slots vs st -> stk w s h vs (firstn (length vs) ls) st.
Proof.
  intros (_ & H) S0. split; auto. apply Forall2_app_inv_l in H as (l1 & l2 & H1 & H2 & ->).
  replace (firstn (length vs) (l1 ++ l2)) with l1.
  2: { rewrite (F2len H1), firstn_app, Nat.sub_diag, firstn_all. cbn. now rewrite app_nil_r. }
  eapply Forall2_weak; [|exact H1]. intros z v Hz (a & A & B). exists a. split; auto.
  rewrite slot_app in A; auto. eapply slots_le; eauto.
Qed.
Lemma stk_len w s h vs ls st : stk w s h vs ls st -> zlen vs = zlen ls.
Proof. intros (_ & H). unfold zlen. now rewrite (F2len H). Qed.
Lemma stk_nth w s h vs ls st n v z : stk w s h vs ls st -> nth_error ls n = Some v -> nth_error vs n = Some z ->
  exists a, nth_error st (Z.to_nat (zlen st - z)) = Some a /\ vrel w s h v a /\ 1 <= z <= zlen st.
Proof.
  intros ((_ & A) & H) H1 H2. assert (Hz : In z vs) by (eapply nth_error_In; eauto). apply A in Hz.
  revert n H1 H2. induction H as [|z' v' vs ls (a & B & C) H IH]; intros [|n] H1 H2; try discriminate.
  - injection H1 as ->. injection H2 as ->. exists a. auto.
  - eapply IH; eauto. intros; apply A; now right.
Qed.
Lemma keep_slots vs a b : keep vs a b -> slots vs a -> slots vs b.
Proof. intros (L & _) (A & B). split; auto. now rewrite L. Qed.

(** ** Continuations *)
Definition frame_ok (R : list value) (x : Z) : Prop :=
  exists xb c e x0 R2, R = xb ++ VPc c :: e :: VInt x0 :: R2 /\ zlen xb = x.
Fixpoint rety (C : list instr) : bool :=
  match C with
  | Kpop _ :: C1 => rety C1
  | Kreturn _ :: _ => true
  | Klabel _ :: Kreturn _ :: _ => true
  | _ => false
  end.
Section Frame.
Variable K : list instr.
Variable R : list value.
Variable x t : Z.
Variable e : value.
Fixpoint okP (sz : Z) (C : list instr) : Prop :=
  match C with
  | Kpop k :: C1 => 0 <= k <= sz /\ okP (sz - k) C1
  | Kreturn m :: _ => m = sz /\ frame_ok R x /\ t <= zlen R
  | Klabel _ :: Kreturn m :: _ => m = sz /\ frame_ok R x /\ t <= zlen R
  | Kraise :: _ => t <= sz + zlen R
  | _ => True
  end.
Definition okC (sz : Z) (C : list instr) : Prop := t <= sz + zlen R /\ okP sz C.
Lemma okC_t sz C : 0 <= sz -> okC sz C -> t <= sz + zlen R.
Proof. now intros _ []. Qed.
Lemma rety_frameP sz C : rety C = true -> okP sz C -> frame_ok R x /\ t <= zlen R.
Proof.
  revert sz. induction C as [|i C IH]; cbn; try discriminate. intros sz. destruct i; try discriminate.
  - intros H (H1 & H2). eauto.
  - tauto.
  - destruct C as [|[]]; try discriminate. tauto.
Qed.
Lemma rety_frame sz C : rety C = true -> okC sz C -> frame_ok R x /\ t <= zlen R.
Proof. intros H (_ & H2). eapply rety_frameP; eauto. Qed.
Lemma addPop_okP m sz C : 0 <= m -> 0 <= sz -> okP sz C -> okP (sz + m) (addPop m C).
Proof.
  unfold addPop. revert m sz. induction C as [|i C IH]; intros m sz Hm Hs H.
  - cbn in *. destruct (m =? 0) eqn:E; cbn; auto. lia.
  - cbn [addPop_]. destruct (m =? 0) eqn:E. { replace m with 0 by lia. now rewrite Z.add_0_r. }
    assert (G : okP (sz + m) (Kpop m :: i :: C)). { cbn [okP] in *. replace (sz + m - m) with sz by lia. split; [lia|]. exact H. }
    destruct i; try exact G.
    + cbn in H. destruct H as (H1 & H2). replace (sz + m) with (sz - n + (m + n)) by lia. apply IH; auto; lia.
    + cbn in *. destruct H as (-> & H). split; auto. lia.
    + cbn in *. lia.
    + destruct C as [|[]]; try exact G. cbn in *. destruct H as (-> & H). split; auto. lia.
Qed.
Lemma addPop_ok m sz C : 0 <= m -> 0 <= sz -> okC sz C -> okC (sz + m) (addPop m C).
Proof. intros H1 H2 (H3 & H4). split; [lia|]. now apply addPop_okP. Qed.
Lemma rety_addPop m C : rety (addPop m C) = rety C.
Proof.
  unfold addPop. revert m. induction C as [|i C IH]; intros m; cbn [addPop_].
  - now destruct (m =? 0).
  - destruct (m =? 0); auto. destruct i; try reflexivity; [cbn; apply IH | destruct C as [|[]]; reflexivity].
Qed.

(** ** Where the result of a term goes *)
Section Pos.
Variable w0 : world.
Variable st0 : list value.
Variable vs : list Z.
(* the state afterwards *)
Variable w : world.
Variable s : store.
Variable h : heap_t.
Variable gm : globals.
Variable ls : list sval.

Definition func (v : sval) : option (nat * list sval) :=
  match v with SLoc l => Some (l, []) | SPap l a => Some (l, a) | _ => None end.
Definition vst (lbl : Z) (ad : nat) (acc : value) (sp : list value) (x : Z) : mst :=
  mkM (target P lbl) acc sp (VPtr ad) x t h gm.
Definition retgoal (s0 : mst) (v : sval) : Prop :=
  (x = 0 -> exists a, vrel w s h v a /\
     forall c e' x0 R2, R = VPc c :: e' :: VInt x0 :: R2 -> J s0 (mkM c a R2 e' x0 t h gm)) /\
  (0 < x -> forall l args lbl vs' fd, func v = Some (l, args) -> nth_error s l = Some (Clo lbl vs') -> F lbl = Some fd ->
     (length args < f_nargs fd)%nat /\
     exists acc avs ad, Forall2 (vrel w s h) args avs /\ nth_error w l = Some ad /\
       J s0 (vst lbl ad acc (avs ++ R) (x + zlen avs - 1))).
Definition land (s0 : mst) (c : list instr) (Q : value -> Prop) : Prop :=
  exists st a, stk w s h vs ls st /\ keep vs st0 st /\ Q a /\ J s0 (mkM c a (st ++ R) e x t h gm).
Definition goal (s0 : mst) (C : list instr) (v : sval) : Prop :=
  if rety C then retgoal s0 v
  else match C with
       | Kbranchif l :: D => forall tg, stag s v = Some tg -> land s0 (if tg =? 0 then D ++ K else target P l) (fun _ => True)
       | Kbranchifnot l :: D => forall tg, stag s v = Some tg -> land s0 (if tg =? 0 then target P l else D ++ K) (fun _ => True)
       | _ => if overwrites C then land s0 (C ++ K) (fun _ => True) else land s0 (C ++ K) (vrel w s h v)
       end.
Definition abrt (s0 : mst) (sf : Z * Z) (r : res) : Prop :=
  match r with
  | RV _ => False
  | RX v => land s0 [Kraise] (vrel w s h v)
  | RF => exists st a, stk w s h vs ls st /\ keep vs st0 st /\
            J s0 (mkM (target P (fst sf)) a (skipn (Z.to_nat (zlen st0 - snd sf)) st ++ R) e x t h gm)
  end.
End Pos.
End Frame.

Definition out K R x t e (sf : Z * Z) vs C (s0 : mst) (w : world) (s : store) (h : heap_t) (st : list value) (r : res) (s' : sst) : Prop :=
  exists w' h' gm', ext w s h w' (sto s') h' /\ Inv w' (sto s') h' (gl s') gm' /\
    match r with
    | RV v => goal K R x t e st vs w' (sto s') h' gm' (loc s') s0 C v
    | _ => abrt R x t e st vs w' (sto s') h' gm' (loc s') s0 sf r
    end.

(** ** The code of the functions *)
Variable shc : nat -> option lam.
Variable nf : lam -> Prop.
Definition argslots (n : nat) : list Z := rev (map Z.of_nat (seq 1 n)).
Definition code_ok : Prop :=
  forall lbl fd, F lbl = Some fd ->
    let n := f_nargs fd in
    (1 <= n)%nat /\
    exists K C' D, cmp P K (f_fv fd) shc nf (Nolabel, 0) (Z.of_nat n) (argslots n) (f_body fd) (Kreturn (Z.of_nat n) :: D) C' /\
      ((n = 1)%nat -> target P lbl = C' ++ K) /\
      ((1 < n)%nat -> target P lbl = Kgrab (Z.of_nat n - 1) :: C' ++ K /\
                      find_restart P lbl = Some (Krestart :: Klabel lbl :: Kgrab (Z.of_nat n - 1) :: C' ++ K) /\
                      grab_label P (C' ++ K) = Some lbl).
Hypothesis CO : code_ok.

Lemma enter w s h g gm v a l args lbl vs' fd t :
  Inv w s h g gm -> vrel w s h v a -> func v = Some (l, args) -> nth_error s l = Some (Clo lbl vs') -> F lbl = Some fd ->
  exists c avs ad, code_val P h a = Some c /\ Forall2 (vrel w s h) args avs /\ nth_error w l = Some ad /\
    (length args < f_nargs fd)%nat /\
    forall sp x, J (mkM c a sp a x t h gm) (mkM (target P lbl) a (avs ++ sp) (VPtr ad) (x + zlen avs) t h gm).
Proof.
  intros I V Fv S1 F1. destruct (CO _ _ F1) as (N1 & K & C' & D & _ & _ & CG).
  destruct (i_blk _ _ _ _ _ _ _ _ I _ _ S1) as (ad & m & W1 & H1 & avs0 & -> & _).
  destruct v as [n | t' | l' | l' args' |]; try discriminate; injection Fv as E1 E2; subst l' args.
  - cbn in V. destruct V as (ad1 & W2 & ->). assert (ad1 = ad) by congruence. subst.
    exists (target P lbl), [], ad. split. { unfold code_val, field. now rewrite H1. }
    split; auto. split; auto. split; [cbn; lia|]. intros sp x. cbn [app]. rewrite zlen_nil, Z.add_0_r. apply J_refl.
  - cbn in V. destruct V as (ad1 & lbl1 & vs1 & ad2 & avs & fd1 & -> & N & S2 & W2 & F2 & L & NE & H2 & AL).
    rewrite S1 in S2. injection S2 as <- <-. rewrite F1 in F2. injection F2 as <-. rewrite W1 in W2. injection W2 as <-.
    assert (N2 : (1 < f_nargs fd)%nat). { destruct args'; [easy|]. cbn in L. lia. }
    destruct (CG N2) as (T1 & T2 & T3).
    eexists _, avs, ad. split. { unfold code_val, field. rewrite H2. cbn. exact T2. }
    split; [now apply all_Forall2|]. split; auto. split; auto. intros sp x.
    eapply J_step_l. { cbn [step pc env heap]. rewrite H2. cbn [fields]. reflexivity. }
    eapply J_step_l; [reflexivity|]. unfold upd_pc. cbn. rewrite T1. fold (@zlen value avs). apply J_refl.
Qed.

Section Frame2.
Variable K : list instr.
Variable R : list value.
Variable x t : Z.
Variable e : value.
Notation okC := (okC R x t).
Notation retgoal := (retgoal R x t).
Notation land := (land R x t e).
Notation goalF := (goal K R x t e).

Section Pos2.
Variable st0 : list value.
Variable vs : list Z.
Variable w : world.
Variable s : store.
Variable h : heap_t.
Variable g : sglob.
Variable gm : globals.
Variable ls : list sval.
Hypothesis I : Inv w s h g gm.
Hypothesis X0 : 0 <= x.
Notation retgoal_ := (retgoal w s h gm).
Notation land_ := (land st0 vs w s h gm ls).
Notation goal_ := (goalF st0 vs w s h gm ls).

Lemma ret_intro C : forall sz st s0 v a, rety C = true -> okP R x t sz C -> zlen st = sz -> vrel w s h v a ->
  J s0 (mkM (C ++ K) a (st ++ R) e x t h gm) -> retgoal_ s0 v.
Proof.
  assert (B : forall n c st s0 v a, frame_ok R x -> zlen st = n -> vrel w s h v a ->
    J s0 (mkM (Kreturn n :: c) a (st ++ R) e x t h gm) -> retgoal_ s0 v).
  { intros n c st s0 v a (xb & c1 & e1 & x1 & R2 & ER & EX) L V HJ. split.
    - intros ->. exists a. split; auto. intros c0 e0 x0 R0 E0. eapply J_step_r; [|exact HJ].
      cbn [step pc sp extra]. rewrite ztake_app by exact L. unfold do_return. cbn [extra sp accu trap heap glob].
      rewrite E0. reflexivity.
    - intros Hx l args lbl vs' fd Fv S1 F1. destruct (enter _ _ _ _ _ _ _ _ _ _ _ _ t I V Fv S1 F1) as (c0 & avs & ad & CV & A1 & A2 & A3 & A4).
      split; auto. exists a, avs, ad. split; auto. split; auto.
      eapply J_trans; [exact HJ|]. eapply J_step_l.
      { cbn [step pc sp extra]. rewrite ztake_app by exact L. unfold do_return. cbn [extra sp accu trap heap glob].
        destruct (0 <? x) eqn:E; [|lia]. rewrite CV. reflexivity. }
      unfold vst. replace (x + zlen avs - 1) with (x - 1 + zlen avs) by lia. apply A4. }
  induction C as [|i C IH]; try discriminate. intros sz st s0 v a HR HO HL HV HJ.
  destruct i; try discriminate.
  - cbn in HR, HO. destruct HO as (Hn & HO).
    assert (Hs : zlen (skipn (Z.to_nat n) st) = sz - n). { unfold zlen in *. rewrite skipn_length. lia. }
    apply (IH (sz - n) (skipn (Z.to_nat n) st) s0 v a); auto.
    eapply J_step_r; [|exact HJ]. cbn [step pc app sp].
    rewrite <- (firstn_skipn (Z.to_nat n) st) at 1. rewrite <- app_assoc, ztake_app; [reflexivity|].
    rewrite firstn_length_le; unfold zlen in *; lia.
  - cbn in HO. destruct HO as (-> & HF & _). eapply B; eauto.
  - destruct C as [|[] C]; try discriminate. cbn in HO. destruct HO as (-> & HF & _).
    eapply B; eauto. eapply J_step_r; [|exact HJ]. reflexivity.
Qed.

Lemma tag_rel v a tg : vrel w s h v a -> stag s v = Some tg -> tag_val h a = Some tg.
Proof.
  destruct v as [n | t' | l' | l' args' |]; try discriminate; cbn.
  - intros ->. auto.
  - intros (ad & W & ->). cbn. destruct (nth_error s l') as [[t1 vs1 | ]|] eqn:E; try discriminate. intros [= <-].
    destruct (i_blk _ _ _ _ _ _ _ _ I _ _ E) as (ad1 & m & W1 & H1 & avs & -> & _). assert (ad1 = ad) by congruence. subst.
    now rewrite H1.
Qed.

Lemma goal_intro C v s0 : okC (zlen st0) C -> land_ s0 (C ++ K) (vrel w s h v) -> goal_ s0 C v.
Proof.
  intros HO (st & a & S1 & S2 & V & HJ). unfold goal. destruct (rety C) eqn:ER.
  { apply (ret_intro C (zlen st0) st s0 v a); auto. apply HO. apply S2. }
  assert (Hov : land_ s0 (C ++ K) (fun _ => True)) by (exists st, a; auto).
  assert (Hv : land_ s0 (C ++ K) (vrel w s h v)) by (exists st, a; auto).
  destruct C as [|i C]; [exact Hv|].
  destruct i; cbn [overwrites]; auto.
  - intros tg Htg. apply (tag_rel _ _ _ V) in Htg. exists st, a. split; auto. split; auto. split; auto.
    eapply J_step_r; [|exact HJ]. cbn. unfold truth. rewrite Htg. cbn. destruct (tg =? 0); reflexivity.
  - intros tg Htg. apply (tag_rel _ _ _ V) in Htg. exists st, a. split; auto. split; auto. split; auto.
    eapply J_step_r; [|exact HJ]. cbn. unfold truth. rewrite Htg. cbn. destruct (tg =? 0); reflexivity.
Qed.

(** continuations whose value arrives *)
Definition plain (C : list instr) : bool :=
  negb (rety C) && negb (overwrites C) && match C with Kbranchif _ :: _ | Kbranchifnot _ :: _ => false | _ => true end.
Lemma goal_plain C v s0 : plain C = true -> goal_ s0 C v -> land_ s0 (C ++ K) (vrel w s h v).
Proof.
  unfold plain, goal. destruct (rety C); try discriminate. cbn [negb andb].
  destruct (overwrites C) eqn:E; try discriminate. cbn [negb andb]. destruct C as [|[] C]; auto; discriminate.
Qed.

Lemma land_J s0 c c' Q : land_ s0 c Q -> (forall a st, J (mkM c a st e x t h gm) (mkM c' a st e x t h gm)) -> land_ s0 c' Q.
Proof. intros (st & a & A & B & C & D) H. exists st, a. split; [exact A|]. split; [exact B|]. split; [exact C|]. eapply J_trans; [exact D | apply H]. Qed.
Lemma J_jump l C a st : J (mkM (Kbranch l :: C) a st e x t h gm) (mkM (target P l) a st e x t h gm).
Proof. eapply J_step_l; [reflexivity|]. apply J_refl. Qed.
Lemma J_lbl l C a st : J (mkM (Klabel l :: C) a st e x t h gm) (mkM C a st e x t h gm).
Proof. eapply J_step_l; [reflexivity|]. apply J_refl. Qed.

Lemma goal_label l C v s0 : okC (zlen st0) C -> goal_ s0 (Klabel l :: C) v -> goal_ s0 C v.
Proof.
  intros HO H. destruct (rety (Klabel l :: C)) eqn:E.
  - unfold goal in *. rewrite E in H. destruct C as [|[] C]; try discriminate. exact H.
  - apply goal_plain in H. 2: { unfold plain. rewrite E. reflexivity. }
    apply goal_intro; auto. eapply land_J; [exact H|]. intros. apply J_lbl.
Qed.
Lemma goal_mbr_l C br C1 v s0 : mbr P K C br C1 -> okC (zlen st0) C -> goal_ s0 C1 v -> goal_ s0 C v.
Proof. intros HM HO HG. inversion HM; subst; auto. eapply goal_label; eauto. Qed.
Lemma goal_mbr C br C1 D v s0 : mbr P K C br C1 -> okC (zlen st0) C -> goal_ s0 (br :: D) v -> goal_ s0 C v.
Proof.
  intros HM HO HG. inversion HM; subst; auto.
  - apply goal_plain in HG; [|reflexivity]. apply goal_intro; auto. eapply land_J; [exact HG|]. intros.
    eapply J_trans; [apply J_jump|]. apply J_sym, J_jump.
  - apply goal_plain in HG; [|reflexivity]. apply goal_intro; auto. eapply land_J; [exact HG|]. intros. cbn [app].
    apply J_eqv. right. cbn. repeat split; eexists; reflexivity.
  - apply goal_plain in HG; [|reflexivity]. apply goal_intro; auto. eapply land_J; [exact HG|]. intros.
    eapply J_trans; [apply J_jump|]. rewrite H0. apply J_sym, J_lbl.
  - apply goal_plain in HG; [|reflexivity]. apply goal_intro; auto. eapply land_J; [exact HG|]. intros.
    eapply J_trans; [apply J_jump|]. rewrite H0. apply J_refl.
Qed.
Lemma J_goes C l a st : goes P K C l -> J (mkM (C ++ K) a st e x t h gm) (mkM (target P l) a st e x t h gm).
Proof. intros H. inversion H; subst; [apply J_jump|]. rewrite H0. apply J_lbl. Qed.
Lemma head_ret_rety C : head_ret C <> None -> rety C = true.
Proof. destruct C as [|[] C]; cbn; try easy. destruct C as [|[] C]; cbn; easy. Qed.
Lemma goes_plain C l : head_ret C = None -> goes P K C l -> plain C = true.
Proof. intros H G. inversion G; subst; auto. destruct C0 as [|[] C]; cbn in *; try easy. Qed.
Lemma goal_same C' C v s0 : same P K C' C -> okC (zlen st0) C -> goal_ s0 C' v -> goal_ s0 C v.
Proof.
  intros HS HO HG. inversion HS; subst; auto.
  - unfold goal in *. rewrite head_ret_rety in * by congruence. auto.
  - apply goal_plain in HG; [|eapply goes_plain; eauto]. apply goal_intro; auto. eapply land_J; [exact HG|]. intros.
    eapply J_trans; [apply J_goes; eauto|]. apply J_sym, J_goes; auto.
  - apply goal_plain in HG; [|reflexivity]. apply goal_intro; auto. eapply land_J; [exact HG|]. intros. cbn [app].
    apply J_eqv. right. cbn. repeat split; eexists; reflexivity.
Qed.
Lemma okC_same C' C sz : same P K C' C -> 0 <= sz -> okC sz C -> okC sz C'.
Proof.
  intros HS Hs HO. pose proof (okC_t _ _ _ _ _ Hs HO) as Ht. inversion HS; subst; auto.
  - destruct C' as [|[] C']; try discriminate; [|destruct C' as [|[] C']; try discriminate]; injection H as ->;
    (destruct C as [|[] C]; try discriminate; [|destruct C as [|[] C]; try discriminate]); injection H0 as ->; exact HO.
  - split; auto. inversion H1; subst; cbn; auto. destruct C0 as [|[] C0]; cbn; auto. discriminate.
Qed.
Lemma okC_label l C sz : 0 <= sz -> okC sz C -> okC sz (Klabel l :: C).
Proof. intros Hs (Ht & HO). split; auto. destruct C as [|[] C]; cbn; auto. Qed.
Lemma okC_mbr C br C1 sz : mbr P K C br C1 -> 0 <= sz -> okC sz C -> okC sz C1 /\ forall D, okC sz (br :: D).
Proof.
  intros HM Hs HO. pose proof (okC_t _ _ _ _ _ Hs HO) as Ht. inversion HM; subst; split; auto; try (split; [exact Ht | cbn; auto]; fail); try (intros; split; [exact Ht | now cbn]); try (intros; exact HO).
  all: now apply okC_label.
Qed.
Lemma J_lab C l C1 a st : lab P K C l C1 ->
  J (mkM (target P l) a st e x t h gm) (mkM (C ++ K) a st e x t h gm) /\
  J (mkM (C1 ++ K) a st e x t h gm) (mkM (C ++ K) a st e x t h gm).
Proof.
  intros H. inversion H; subst; split; try apply J_refl.
  - apply J_sym, J_jump.
  - rewrite H0. apply J_sym, J_lbl.
  - rewrite H0. apply J_refl.
  - apply J_lbl.
Qed.
End Pos2.

(** *** dropping words from the stack *)
Section Pop.
Variable vs vs2 : list Z.
Variable T st0 : list value.
Variable w : world.
Variable s : store.
Variable h : heap_t.
Variable g : sglob.
Variable gm : globals.
Variable ls : list sval.
Hypothesis I : Inv w s h g gm.
Hypothesis X0 : 0 <= x.
Hypothesis SL : slots vs st0.
Hypothesis V2 : forall z, In z vs2 -> zlen st0 < z.

Lemma land_pop s0 c c' (Q : value -> Prop) :
  land (T ++ st0) (vs ++ vs2) w s h gm ls s0 c Q ->
  (forall a T' st, zlen T' = zlen T -> zlen st = zlen st0 -> J (mkM c a (T' ++ st ++ R) e x t h gm) (mkM c' a (st ++ R) e x t h gm)) ->
  land st0 vs w s h gm (firstn (length vs) ls) s0 c' Q.
Proof.
  intros (st & a & A & B & C & D) HJ. pose proof (keep_drop _ _ _ _ _ B V2) as (T' & st' & -> & L & B').
  exists st', a. split. { eapply stk_unbind; eauto. eapply keep_slots; eauto. }
  split; auto. split; auto. eapply J_trans; [exact D|]. rewrite <- app_assoc. apply HJ; auto. apply B'.
Qed.
Lemma goal_addPop C v s0 : okC (zlen st0) C ->
  goalF (T ++ st0) (vs ++ vs2) w s h gm ls s0 (addPop (zlen T) C) v ->
  goalF st0 vs w s h gm (firstn (length vs) ls) s0 C v.
Proof.
  intros HO HG. destruct (rety C) eqn:ER.
  { unfold goal in *. rewrite rety_addPop, ER in *. auto. }
  (* the words to drop: those of T, and those that C drops first *)
  assert (Main : forall C (T st0 : list value), 0 <= zlen st0 -> okP R x t (zlen st0) C -> rety C = false -> 0 < zlen T ->
     plain (addPop (zlen T) C) = true /\
     forall a T' st, zlen T' = zlen T -> zlen st = zlen st0 ->
       J (mkM (addPop (zlen T) C ++ K) a (T' ++ st ++ R) e x t h gm) (mkM (C ++ K) a (st ++ R) e x t h gm)).
  { clear. intros C. induction C as [|i C IH]; intros T st0 Hz HO ER HT.
    - unfold addPop. cbn [addPop_]. destruct (zlen T =? 0) eqn:E; [lia|]. split; auto. intros a T' st L L'. cbn [app].
      eapply J_step_l; [|apply J_refl]. cbn. rewrite ztake_app; auto.
    - assert (G : forall a T' st, zlen T' = zlen T -> zlen st = zlen st0 ->
        J (mkM ((Kpop (zlen T) :: i :: C) ++ K) a (T' ++ st ++ R) e x t h gm) (mkM ((i :: C) ++ K) a (st ++ R) e x t h gm)).
      { intros a T' st L L'. eapply J_step_l; [|apply J_refl]. cbn. rewrite ztake_app; auto. }
      assert (E : zlen T =? 0 = false) by lia.
      unfold addPop. cbn [addPop_]. rewrite E.
      destruct i; try (split; [reflexivity | exact G]); try discriminate.
      + cbn in HO, ER. destruct HO as (Hn & HO).
        specialize (IH (T ++ firstn (Z.to_nat n) st0) (skipn (Z.to_nat n) st0)).
        assert (L1 : zlen (firstn (Z.to_nat n) st0) = n) by (unfold zlen in *; rewrite firstn_length_le; lia).
        assert (L2 : zlen (skipn (Z.to_nat n) st0) = zlen st0 - n) by (unfold zlen in *; rewrite skipn_length; lia).
        rewrite zlen_app, L1, L2 in IH. destruct IH as (A & B); auto; try lia. split; [exact A|].
        intros a T' st LT LS.
        eapply J_trans. 2: { apply J_sym. eapply J_step_l; [|apply J_refl]. cbn [step pc app sp].
          rewrite <- (firstn_skipn (Z.to_nat n) st) at 1. rewrite <- app_assoc, ztake_app; [reflexivity|].
          rewrite firstn_length_le; unfold zlen in *; lia. }
        rewrite <- (firstn_skipn (Z.to_nat n) st) at 1. rewrite <- app_assoc, app_assoc. apply B.
        * rewrite zlen_app. unfold zlen in *. rewrite firstn_length_le; lia.
        * unfold zlen in *. rewrite skipn_length. lia.
      + split; [reflexivity|]. intros a T' st LT LS. cbn in HO. cbn [app]. apply J_raise. rewrite app_length.
        unfold zlen in *. lia.
      + destruct C as [|[] C]; try (split; [reflexivity | exact G]). discriminate. }
  destruct (Z.eq_dec (zlen T) 0) as [E0 | E0].
  -
    unfold goal in *. rewrite rety_addPop, ER in HG. rewrite ER.
    assert (EA : addPop (zlen T) C = C). { rewrite E0. now destruct C. }
    rewrite EA in HG. destruct C as [|i C].
    + cbn [overwrites] in *. eapply land_pop; [exact HG|]. intros a T' st L _. rewrite E0 in L.
      apply zlen_0 in L. subst T'. apply J_refl.
    + assert (HP : forall c Q, land (T ++ st0) (vs ++ vs2) w s h gm ls s0 c Q -> land st0 vs w s h gm (firstn (length vs) ls) s0 c Q).
      { intros c Q H. eapply land_pop; [exact H|]. intros a T' st L _. rewrite E0 in L.
        apply zlen_0 in L. subst T'. apply J_refl. }
      destruct i; cbn [overwrites] in *; auto.
  - pose proof (zlen_ge0 T). pose proof (zlen_ge0 st0). destruct (Main C T st0) as (A & B); auto; try lia. { apply HO. }
    apply goal_plain in HG; auto. eapply goal_intro; eauto. eapply land_pop; [exact HG|exact B].
Qed.
End Pop.
End Frame2.
End Goal.
