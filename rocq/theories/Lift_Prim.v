(** Stores and primitives before and after UNdeBruijn (Lift_Rel). *)
From Verif Require Import Base Opcodes Back_Model Back_Spec Back_Sim Back_Frame Lam_Spec Lift_Rel.

Section Prim.
Variable F : Z -> option fundef.
Variable p : sprims.
Variable ar : primitive -> nat.
Notation inv := (inv F p).
Notation frelv := (frelv F).

Lemma cvars_mono W W' fv cl env : pre W W' -> cvars W fv cl env -> cvars W' fv cl env.
Proof. intros P H id Hi. destruct (H id Hi) as (v & i & v' & E1 & E2 & E3 & E4). exists v, i, v'. repeat (split; auto). eapply vr_mono; eauto. Qed.
Lemma frelv_mono W W' fns fns' t t' k env v' : pre W W' -> pre fns fns' ->
  (forall l lbl vs, nth_error t l = Some (Clo lbl vs) -> nth_error t' l = Some (Clo lbl vs)) -> frelv W fns t k env v' -> frelv W' fns' t' k env v'.
Proof.
  intros P1 P2 P3 (b & j & l' & args' & lbl & vs' & fv & b' & args & env0 & A0 & A1 & A2 & A3 & A4 & A5 & A6 & A7 & A8 & A9).
  exists b, j, l', args', lbl, vs', fv, b', args, env0. split; auto. split; [eapply pre_nth; eauto|]. do 5 (split; auto).
  split; [eapply vrs_mono; eauto|]. split; auto. eapply cvars_mono; eauto.
Qed.
Lemma nth_app_last {A} (l : list A) x i y : nth_error (l ++ [x]) i = Some y -> nth_error l i = Some y \/ (i = length l /\ y = x).
Proof.
  intros H. destruct (Nat.lt_ge_cases i (length l)) as [C | C]; [rewrite nth_error_app1 in H; auto|].
  rewrite nth_error_app2 in H by auto. destruct (i - length l)%nat as [|m] eqn:E; [|destruct m; discriminate]. injection H as <-. right. split; auto. lia.
Qed.
Lemma nth_lt {A} (l : list A) i x : nth_error l i = Some x -> (i < length l)%nat.
Proof. intros H. apply nth_error_Some. congruence. Qed.
Lemma nth_last {A} (l : list A) x : nth_error (l ++ [x]) (length l) = Some x.
Proof. rewrite nth_error_app2, Nat.sub_diag by lia. reflexivity. Qed.

Lemma glob_mono W W' s gt : pre W W' -> (forall u v, slook s u = Some v -> exists v', slook gt u = Some v' /\ vr W v v') ->
  forall u v, slook s u = Some v -> exists v', slook gt u = Some v' /\ vr W' v v'.
Proof. intros P H u v E. destruct (H u v E) as (v' & E1 & E2). exists v'. split; auto. eapply vr_mono; eauto. Qed.

Lemma inv_blk W s t gt tg vs vs' : inv W s t gt -> Forall2 (vr W) vs vs' ->
  inv (W ++ [Some (SLoc (length t))]) (mkX (xsto s ++ [Blk tg vs]) (xgl s) (xfn s)) (t ++ [Blk tg vs']) gt.
Proof.
  intros I V. assert (P : pre W (W ++ [Some (SLoc (length t))])) by apply pre_app. assert (P2 : pre t (t ++ [Blk tg vs'])) by apply pre_app.
  assert (LW : length W = length (xsto s)) by apply I.
  assert (NB : forall l tg1 vs1, nth_error (xsto s) l = Some (Blk tg1 vs1) -> nth_error W l = Some (Some (SLoc (length t))) -> False).
  { intros l tg1 vs1 H1 H2. destruct (v_blk _ _ _ _ _ _ I _ _ _ _ H1 H2) as (l' & vs2 & [= <-] & E & _). apply nth_lt in E. lia. }
  constructor; cbn [xsto xgl xfn].
  - rewrite !app_length. cbn. lia.
  - intros l tg1 vs1 v' H1 H2. apply nth_app_last in H1 as [H1 | (-> & [= -> ->])].
    + assert (HW : nth_error W l = Some (Some v')). { apply nth_app_last in H2 as [H2 | (-> & _)]; auto. apply nth_lt in H1. lia. }
      destruct (v_blk _ _ _ _ _ _ I _ _ _ _ H1 HW) as (l' & vs2 & -> & E1 & E2). exists l', vs2. split; auto. split; [eapply pre_nth; eauto | eapply vrs_mono; eauto].
    + rewrite <- LW, nth_last in H2. injection H2 as <-. exists (length t), vs'. split; auto. split; [apply nth_last | eapply vrs_mono; eauto].
  - intros l k env H. apply nth_app_last in H as [H | (_ & H)]; [|discriminate]. destruct (v_clo _ _ _ _ _ _ I _ _ _ H) as (v' & E1 & E2). exists v'.
    split; [eapply pre_nth; eauto|]. apply (frelv_mono W _ (xfn s) _ t); auto using pre_refl. intros. eapply pre_nth; eauto.
  - intros l1 l2 tg1 vs1 tg2 vs2 v' H1 H2 H3 H4.
    apply nth_app_last in H3 as [H3 | (-> & [= ->])]; apply nth_app_last in H4 as [H4 | (-> & E4)]; auto.
    + apply nth_app_last in H1 as [H1 | (-> & _)]; [|apply nth_lt in H3; lia]. apply nth_app_last in H2 as [H2 | (-> & _)]; [|apply nth_lt in H4; lia].
      eapply (v_inj _ _ _ _ _ _ I); eauto.
    + injection E4 as ->. apply nth_app_last in H1 as [H1 | (-> & _)]; [|apply nth_lt in H3; lia]. destruct (NB _ _ _ H1 H3).
    + apply nth_app_last in H2 as [H2 | (-> & _)]; [|apply nth_lt in H4; lia]. destruct (NB _ _ _ H2 H4).
  - eapply glob_mono; eauto. apply I.
  - intros k. eapply vr_mono; eauto. apply I.
Qed.
Lemma inv_cell W s t gt tg vs : inv W s t gt -> inv (W ++ [None]) (mkX (xsto s ++ [Blk tg vs]) (xgl s) (xfn s)) t gt.
Proof.
  intros I. assert (P : pre W (W ++ [None])) by apply pre_app.
  assert (LW : length W = length (xsto s)) by apply I.
  assert (K : forall l v', nth_error (W ++ [None]) l = Some (Some v') -> nth_error W l = Some (Some v')).
  { intros l v' H. apply nth_app_last in H as [H | (_ & H)]; auto. discriminate. }
  assert (K2 : forall l v' b, nth_error W l = Some (Some v') -> nth_error (xsto s ++ [Blk tg vs]) l = Some b -> nth_error (xsto s) l = Some b).
  { intros l v' b H H1. apply nth_app_last in H1 as [H1 | (-> & _)]; auto. apply nth_lt in H. lia. }
  constructor; cbn [xsto xgl xfn].
  - rewrite !app_length. cbn. lia.
  - intros l tg1 vs1 v' H1 H2. apply K in H2. destruct (v_blk _ _ _ _ _ _ I _ _ _ _ (K2 _ _ _ H2 H1) H2) as (l' & vs2 & -> & E1 & E2).
    exists l', vs2. split; auto. split; auto. eapply vrs_mono; eauto.
  - intros l k env H. apply nth_app_last in H as [H | (_ & H)]; [|discriminate]. destruct (v_clo _ _ _ _ _ _ I _ _ _ H) as (v' & E1 & E2). exists v'.
    split; [eapply pre_nth; eauto|]. apply (frelv_mono W _ (xfn s) _ t); auto using pre_refl.
  - intros l1 l2 tg1 vs1 tg2 vs2 v' H1 H2 H3 H4. apply K in H3. apply K in H4. eapply (v_inj _ _ _ _ _ _ I); eauto.
  - eapply glob_mono; eauto. apply I.
  - intros k. eapply vr_mono; eauto. apply I.
Qed.
(** new functions *)
Lemma inv_clos W s t gt W2 bs fns ts : inv W s t gt -> length W2 = length bs ->
  (forall i b, nth_error bs i = Some b -> exists k env v', b = Clo k env /\ nth_error W2 i = Some (Some v') /\ frelv (W ++ W2) (xfn s ++ fns) (t ++ ts) k env v') ->
  inv (W ++ W2) (mkX (xsto s ++ bs) (xgl s) (xfn s ++ fns)) (t ++ ts) gt.
Proof.
  intros I L H. assert (P : pre W (W ++ W2)) by apply pre_app. assert (P2 : pre t (t ++ ts)) by apply pre_app.
  assert (LW : length W = length (xsto s)) by apply I.
  assert (S1 : forall l tg vs, nth_error (xsto s ++ bs) l = Some (Blk tg vs) -> nth_error (xsto s) l = Some (Blk tg vs) /\ nth_error (W ++ W2) l = nth_error W l).
  { intros l tg vs E. destruct (Nat.lt_ge_cases l (length (xsto s))) as [C | C].
    - rewrite nth_error_app1 in E by auto. rewrite nth_error_app1 by lia. auto.
    - rewrite nth_error_app2 in E by auto. apply H in E as (k & env & v' & E & _). discriminate. }
  constructor; cbn [xsto xgl xfn].
  - rewrite !app_length. lia.
  - intros l tg1 vs1 v' H1 H2. apply S1 in H1 as (H1 & E). rewrite E in H2.
    destruct (v_blk _ _ _ _ _ _ I _ _ _ _ H1 H2) as (l' & vs2 & -> & E1 & E2). exists l', vs2. split; auto. split; [eapply pre_nth; eauto | eapply vrs_mono; eauto].
  - intros l k env E. destruct (Nat.lt_ge_cases l (length (xsto s))) as [C | C].
    + rewrite nth_error_app1 in E by auto. destruct (v_clo _ _ _ _ _ _ I _ _ _ E) as (v' & E1 & E2). exists v'.
      split; [eapply pre_nth; eauto|]. apply (frelv_mono W _ (xfn s) _ t); auto using pre_app. intros. eapply pre_nth; eauto.
    + rewrite nth_error_app2 in E by auto. apply H in E as (k1 & env1 & v' & [= -> ->] & E1 & E2). exists v'. split; auto.
      rewrite nth_error_app2 by lia. now rewrite LW.
  - intros l1 l2 tg1 vs1 tg2 vs2 v' H1 H2. apply S1 in H1 as (H1 & ->). apply S1 in H2 as (H2 & ->). intros. eapply (v_inj _ _ _ _ _ _ I); eauto.
  - eapply glob_mono; eauto. apply I.
  - intros k. eapply vr_mono; eauto. apply I.
Qed.
Lemma inv_set W s t gt l tg vs l' vs' : inv W s t gt -> nth_error (xsto s) l = Some (Blk tg vs) -> nth_error W l = Some (Some (SLoc l')) -> Forall2 (vr W) vs vs' ->
  forall vs0, nth_error t l' = Some (Blk tg vs0) ->
  forall vs1 vs1', Forall2 (vr W) vs1 vs1' ->
  inv W (mkX (set_nth (xsto s) l (Blk tg vs1)) (xgl s) (xfn s)) (set_nth t l' (Blk tg vs1')) gt.
Proof.
  intros I HS HW V vs0 HT vs1 vs1' V1.
  assert (TC : forall k lbl vs, nth_error t k = Some (Clo lbl vs) -> nth_error (set_nth t l' (Blk tg vs1')) k = Some (Clo lbl vs)).
  { intros k lbl vs2 H. rewrite nth_error_set_nth. destruct (Nat.eqb_spec k l'); auto. congruence. }
  assert (SB : forall k tg1 vs1', nth_error (set_nth (xsto s) l (Blk tg vs1)) k = Some (Blk tg1 vs1') -> exists tg2 vs2, nth_error (xsto s) k = Some (Blk tg2 vs2)).
  { intros k tg1 vs2. rewrite nth_error_set_nth. destruct (Nat.eqb_spec k l); eauto. subst. eauto. }
  constructor; cbn [xsto xgl xfn].
  - rewrite set_nth_length. apply I.
  - intros k tg1 vs2 v' H1 H2. rewrite nth_error_set_nth in H1. destruct (Nat.eqb_spec k l).
    + subst k. rewrite HS in H1. injection H1 as <- <-. rewrite HW in H2. injection H2 as <-. exists l', vs1'. split; auto. split; auto.
      rewrite nth_error_set_nth, Nat.eqb_refl, HT. auto.
    + destruct (v_blk _ _ _ _ _ _ I _ _ _ _ H1 H2) as (l2 & vs3 & -> & E1 & E2). exists l2, vs3. split; auto. split; auto.
      rewrite nth_error_set_nth. destruct (Nat.eqb_spec l2 l'); auto. subst. destruct n. eapply (v_inj _ _ _ _ _ _ I); eauto.
  - intros k c env H. rewrite nth_error_set_nth in H. destruct (Nat.eqb_spec k l); [subst; rewrite HS in H; discriminate|].
    destruct (v_clo _ _ _ _ _ _ I _ _ _ H) as (v' & E1 & E2). exists v'. split; auto. apply (frelv_mono W _ (xfn s) _ t); auto using pre_refl.
  - intros l1 l2 tg1 x1 tg2 x2 v' H1 H2. apply SB in H1 as (a & b & H1). apply SB in H2 as (c & d & H2). eapply (v_inj _ _ _ _ _ _ I); eauto.
  - apply I.
  - apply I.
Qed.
Lemma inv_setc W s t gt l tg vs vs1 : inv W s t gt -> nth_error (xsto s) l = Some (Blk tg vs) -> nth_error W l = Some None ->
  inv W (mkX (set_nth (xsto s) l (Blk tg vs1)) (xgl s) (xfn s)) t gt.
Proof.
  intros I HS HW.
  assert (SB : forall k tg1 vs2 v', nth_error W k = Some (Some v') -> nth_error (set_nth (xsto s) l (Blk tg vs1)) k = Some (Blk tg1 vs2) -> nth_error (xsto s) k = Some (Blk tg1 vs2)).
  { intros k tg1 vs2 v' H. rewrite nth_error_set_nth. destruct (Nat.eqb_spec k l); auto. congruence. }
  constructor; cbn [xsto xgl xfn]; try apply I.
  - rewrite set_nth_length. apply I.
  - intros k tg1 vs2 v' H1 H2. eapply (v_blk _ _ _ _ _ _ I); eauto.
  - intros k c env H. rewrite nth_error_set_nth in H. destruct (Nat.eqb_spec k l); [subst; rewrite HS in H; discriminate|]. now apply (v_clo _ _ _ _ _ _ I).
  - intros l1 l2 tg1 x1 tg2 x2 v' H1 H2 H3 H4. eapply (v_inj _ _ _ _ _ _ I); eauto.
Qed.
Lemma inv_glob W s t gt u v v' : inv W s t gt -> vr W v v' -> inv W (mkX (xsto s) ((u, v) :: xgl s) (xfn s)) t ((u, v') :: gt).
Proof.
  intros I V. constructor; cbn [xsto xgl xfn]; try apply I.
  intros u1 v1. cbn [slook]. destruct (u1 =? u); [intros [= <-]; eauto | apply I].
Qed.

(** the primitives that are left open act on related values and stores alike *)
Record prims_par : Prop := {
  pp_prim : forall q vs vs' b v W fns t g gt st s', sprim p q vs st = Some (b, v, s') -> Forall2 (vr W) vs vs' -> inv W (mkX st g fns) t gt ->
    exists v' t' W', sprim p q vs' t = Some (b, v', t') /\ pre W W' /\ inv W' (mkX s' g fns) t' gt /\ vr W' v v' /\
      (forall l x, nth_error W l = Some None -> nth_error st l = Some x -> nth_error s' l = Some x);
  pp_test : forall c a b a' b' W s t gt r, sxtest p c a b (xsto s) = Some r -> vr W a a' -> vr W b b' -> inv W s t gt -> sxtest p c a' b' t = Some r }.
Hypothesis PP : prims_par.

Lemma vr_stag W s t gt v v' k : inv W s t gt -> vr W v v' -> stag (xsto s) v = Some k -> stag t v' = Some k.
Proof.
  intros I V H. destruct v as [n | n | l | l a |]; cbn in V, H; subst; try discriminate; auto.
  destruct (nth_error (xsto s) l) as [[tg vs|]|] eqn:E; try discriminate. injection H as <-.
  destruct (v_blk _ _ _ _ _ _ I _ _ _ _ E V) as (l' & vs' & -> & E1 & _). cbn. now rewrite E1.
Qed.
Lemma vr_truth W v v' b : vr W v v' -> struth v = Some b -> struth v' = Some b.
Proof. intros V H. destruct v; cbn in V, H; subst; try discriminate. auto. Qed.
Lemma vr_phys W s t gt a b a' b' r : inv W s t gt -> vr W a a' -> vr W b b' -> sphys (xsto s) a b = Some r -> sphys t a' b' = Some r.
Proof.
  intros I Va Vb H. unfold sphys in *.
  assert (K : forall v v', vr W v v' -> (match v with SNum _ | SAtom _ => true | SLoc l => match nth_error (xsto s) l with Some (Blk _ _) => true | _ => false end | _ => false end) = true ->
     (match v' with SNum _ | SAtom _ => true | SLoc l => match nth_error t l with Some (Blk _ _) => true | _ => false end | _ => false end) = true /\
     match v with SNum n => v' = SNum n | SAtom n => v' = SAtom n | SLoc l => exists l' tg vs, v' = SLoc l' /\ nth_error (xsto s) l = Some (Blk tg vs) /\ nth_error W l = Some (Some (SLoc l')) | _ => False end).
  { intros v v' V E. destruct v as [n | n | l | l x |]; cbn in V; subst; try discriminate; auto.
    destruct (nth_error (xsto s) l) as [[tg vs|]|] eqn:E1; try discriminate.
    destruct (v_blk _ _ _ _ _ _ I _ _ _ _ E1 V) as (l' & vs' & -> & E2 & _). rewrite E2. split; auto. eauto 6. }
  match type of H with (if ?x && ?y then _ else _) = _ => destruct x eqn:Ea; [|discriminate]; destruct y eqn:Eb; [|discriminate] end.
  destruct (K _ _ Va Ea) as (-> & Ka). destruct (K _ _ Vb Eb) as (-> & Kb). cbn [andb] in *.
  destruct a as [n | n | l | l x |], b as [m | m | l2 | l2 x2 |]; try contradiction; subst; auto;
    try (destruct Ka as (l' & tg & vs & -> & E1 & E2)); try (destruct Kb as (l2' & tg2 & vs2 & -> & E3 & E4)); subst; auto.
  injection H as <-. f_equal. destruct (Nat.eqb_spec l l2).
  - subst. rewrite E2 in E4. injection E4 as ->. apply Nat.eqb_refl.
  - apply Nat.eqb_neq. intros ->. apply n. eapply (v_inj _ _ _ _ _ _ I); eauto.
Qed.
Lemma vr_test W s t gt c a b a' b' r : inv W s t gt -> vr W a a' -> vr W b b' -> stest p c a b (xsto s) = Some r -> stest p c a' b' t = Some r.
Proof.
  intros I Va Vb H. unfold stest in *. destruct c as [| | c | c | c | c | c]; try discriminate.
  - eapply vr_phys; eauto.
  - destruct (sphys (xsto s) a b) as [x|] eqn:E; [|discriminate]. erewrite vr_phys; eauto.
  - destruct a; try discriminate. destruct b; try discriminate. cbn in Va, Vb. subst. auto.
  - destruct c; try discriminate; eapply (pp_test PP); eauto.
  - destruct c; try discriminate; eapply (pp_test PP); eauto.
  - destruct a; try discriminate. destruct b; try discriminate. cbn in Va, Vb. subst. auto.
Qed.

Definition same_cells (W : w1) (s s' : xst) : Prop :=
  forall l x, nth_error W l = Some None -> nth_error (xsto s) l = Some x -> nth_error (xsto s') l = Some x.
Lemma F2len {A B} (R : A -> B -> Prop) l l' : Forall2 R l l' -> length l = length l'.
Proof. induction 1; cbn; auto. Qed.
Lemma F2nth {A B} (R : A -> B -> Prop) l l' : Forall2 R l l' -> forall i x, nth_error l i = Some x -> exists y, nth_error l' i = Some y /\ R x y.
Proof. induction 1; intros [|i] z; cbn; try discriminate; [intros [= <-]; eauto | auto]. Qed.

Lemma prim_sim q vs vs' s r s' W x : xprim p ar q vs s = Some (r, s') -> Forall2 (vr W) vs vs' -> inv W s (sto x) (gl x) ->
  exists W' r' x', ev_lprim p ar q vs' x = Some (r', x') /\ loc x' = loc x /\ pre W W' /\ inv W' s' (sto x') (gl x') /\ rr W' r r' /\ same_cells W s s'.
Proof.
  intros H V I. unfold xprim in H.
  assert (HC : match ev_lprim p ar q vs (mkS [] (xsto s) (xgl s)) with Some (r, s') => Some (r, mkX (sto s') (gl s') (xfn s)) | None => None end = Some (r, s')).
  { destruct q; try discriminate; auto. }
  assert (NC : is_closure q = false) by (destruct q; auto; discriminate).
  clear H. destruct (ev_lprim p ar q vs _) as [[r1 s1]|] eqn:E; [|discriminate]. injection HC as -> <-.
  assert (SM : forall v v' r', r = RV v -> r' = RV v' \/ False -> vr W v v' -> s1 = mkS [] (xsto s) (xgl s) ->
      exists W' r'' x', Some (r', x) = Some (r'', x') /\ loc x' = loc x /\ pre W W' /\ inv W' (mkX (sto s1) (gl s1) (xfn s)) (sto x') (gl x') /\ rr W' r r'' /\ same_cells W s (mkX (sto s1) (gl s1) (xfn s))).
  { intros v v' r' -> [-> | []] Hv ->. exists W, (RV v'), x. split; auto. split; auto. split; [apply pre_refl|]. split; [now destruct s|]. split; auto. now intros l y. }
  unfold ev_lprim in *. destruct q as [u | u | tg sp | i | i | | lbl csz | q]; try discriminate.
  - (* Pget_global *) destruct V; [|discriminate]. cbn [gl] in E. destruct (slook (xgl s) u) as [v|] eqn:EG; [|discriminate]. injection E as <- <-.
    destruct (v_glob _ _ _ _ _ _ I _ _ EG) as (v' & E1 & E2). rewrite E1. eapply SM; eauto.
  - (* Pset_global *) destruct V as [|v v' vs vs' V1 V2]; [discriminate|]. destruct V2; [|discriminate]. injection E as <- <-.
    exists W, (RV sunit), (mkS (loc x) (sto x) ((u, v') :: gl x)). split; auto. split; auto. split; [apply pre_refl|]. split; [now apply inv_glob|]. split; [reflexivity|]. now intros l y.
  - (* Pmakeblock *) destruct V as [|v v' vs vs' V1 V2]; [discriminate|]. injection E as <- <-. cbn [sto gl loc].
    eexists (W ++ [Some (SLoc (length (sto x)))]), _, _. split; [reflexivity|]. cbn [sto gl loc]. split; auto. split; [apply pre_app|].
    split; [apply inv_blk; auto|]. split. { cbn [rr vr]. rewrite <- (v_len _ _ _ _ _ _ I). apply nth_last. }
    intros l y H1 H2. cbn [xsto]. eapply pre_nth; eauto using pre_app.
  - (* Pfield *) destruct V as [|v v' vs vs' V1 V2]; [discriminate|]. destruct v as [| | l | |]; try discriminate. destruct V2; [|discriminate]. cbn [sto] in E. cbn [vr] in V1.
    destruct (nth_error (xsto s) l) as [[tg vs|]|] eqn:EL; try discriminate. destruct (0 <=? i) eqn:Ei; [|discriminate].
    destruct (nth_error vs (Z.to_nat i)) as [v|] eqn:EN; [|discriminate]. injection E as <- <-.
    destruct (v_blk _ _ _ _ _ _ I _ _ _ _ EL V1) as (l' & vs' & -> & E1 & E2). rewrite E1.
    destruct (F2nth _ _ _ E2 _ _ EN) as (v1 & E3 & E4). rewrite E3. eapply SM; eauto.
  - (* Psetfield *) destruct V as [|v v' vs vs' V1 V2]; [discriminate|]. destruct v as [| | l | |]; try discriminate.
    destruct V2 as [|v2 v2' vs vs' V2 V3]; [discriminate|]. destruct V3; [|discriminate]. cbn [sto] in E. cbn [vr] in V1.
    destruct (nth_error (xsto s) l) as [[tg vs|]|] eqn:EL; try discriminate. destruct (_ && _) eqn:Ei; [|discriminate]. injection E as <- <-.
    destruct (v_blk _ _ _ _ _ _ I _ _ _ _ EL V1) as (l' & vs' & -> & E1 & E2). rewrite E1, <- (F2len _ _ _ E2), Ei.
    eexists W, _, _. split; [reflexivity|]. cbn [sto gl loc]. split; auto. split; [apply pre_refl|].
    split. { eapply inv_set; eauto. now apply Forall2_set_nth. } split; [reflexivity|].
    intros k y H1 H2. cbn [xsto]. rewrite nth_error_set_nth. destruct (Nat.eqb_spec k l); auto. congruence.
  - (* Praise *) destruct V as [|v v' vs vs' V1 V2]; [discriminate|]. destruct V2; [|discriminate]. injection E as <- <-.
    exists W, (RX v'), x. split; auto. split; auto. split; [apply pre_refl|]. split; [now destruct s|]. split; auto. now intros l y.
  - (* Pp *) unfold ev_prim in *.
    assert (GEN : forall g : option (res * sst), g = (if (1 <=? Z.of_nat (length vs)) && Nat.eqb (length vs) (ar q) then
          match sprim p q vs (xsto s) with
          | Some (true, v, s') => Some (RV v, mkS [] s' (xgl s))
          | Some (false, v, s') => Some (RX v, mkS [] s' (xgl s))
          | None => None end else None) -> g = Some (r, s1) ->
        exists W' r' x', (if (1 <=? Z.of_nat (length vs')) && Nat.eqb (length vs') (ar q) then
          match sprim p q vs' (sto x) with
          | Some (true, v, s') => Some (RV v, mkS (loc x) s' (gl x))
          | Some (false, v, s') => Some (RX v, mkS (loc x) s' (gl x))
          | None => None end else None) = Some (r', x') /\ loc x' = loc x /\ pre W W' /\ inv W' (mkX (sto s1) (gl s1) (xfn s)) (sto x') (gl x') /\ rr W' r r' /\ same_cells W s (mkX (sto s1) (gl s1) (xfn s))).
    { intros g -> G. rewrite <- (F2len _ _ _ V). destruct (_ && _); [|discriminate]. destruct (sprim p q vs (xsto s)) as [[[b v] st']|] eqn:EP; [|discriminate].
      assert (I' : inv W (mkX (xsto s) (xgl s) (xfn s)) (sto x) (gl x)) by now destruct s.
      destruct (pp_prim PP _ _ _ _ _ _ _ _ _ _ _ _ EP V I') as (v' & t' & W' & E1 & E2 & E3 & E4 & E5). rewrite E1.
      destruct b; injection G as <- <-; eexists W', _, _; (split; [reflexivity|]); cbn [sto gl loc]; (split; [auto|]); (split; [auto|]); (split; [auto|]); (split; [auto|]); intros l y; apply E5. }
    cbn [sto gl loc] in E.
    destruct q as [| n | t | op n | t | op |]; cbn [negb] in *.
    + destruct V as [|v v' vs vs' V1 V2]; [discriminate|]. destruct V2; [|discriminate]. injection E as <- <-. eapply SM; eauto.
    + discriminate.
    + destruct V as [|v v' vs vs' V1 V2]; [discriminate|]. destruct V2 as [|v2 v2' vs vs' V2 V3]; [discriminate|]. destruct V3; [|discriminate].
      destruct (stest p _ v v2 _) as [b|] eqn:ET; [|discriminate]. injection E as <- <-. erewrite vr_test; eauto. eapply SM; eauto. destruct b; reflexivity.
    + eapply GEN; eauto.
    + destruct V; [|discriminate]. injection E as <- <-. eapply SM; eauto. reflexivity.
    + destruct (op =? UPDATE); [discriminate|]. destruct (op =? BOOLNOT).
      { destruct V as [|v v' vs vs' V1 V2]; [discriminate|]. destruct V2; [|discriminate]. destruct (struth v) as [b|] eqn:ET; [|discriminate]. injection E as <- <-.
        erewrite vr_truth; eauto. eapply SM; eauto. destruct b; reflexivity. }
      destruct (op =? TAGOF).
      { destruct V as [|v v' vs vs' V1 V2]; [discriminate|]. destruct V2; [|discriminate]. destruct (stag (xsto s) v) as [b|] eqn:ET; [|discriminate]. injection E as <- <-.
        erewrite vr_stag; eauto. eapply SM; eauto. reflexivity. }
      eapply GEN; eauto.
    + discriminate.
Qed.
End Prim.
