(** A term and its translation mean the same: functions, cases, and all together. *)
From Verif Require Import Base Opcodes Back_Model Back_Spec Back_Sim Back_Frame Lam_Spec Lift_Rel Lift_Prim Lift_Sim.

Lemma nth_repeat' {A} (x y : A) n i : nth_error (repeat x n) i = Some y -> (i < n)%nat /\ y = x.
Proof. intros H. split. { apply nth_lt in H. now rewrite repeat_length in H. } apply nth_error_In in H. now apply repeat_spec in H. Qed.
Lemma lrel_nil W s env : lrel W s [] env [].
Proof. constructor; auto; intros [|i]; discriminate. Qed.
Lemma lrel_app W s : forall vs vs' us env lc, lrel W s us env lc -> Forall2 (vr W) vs vs' -> lrel W s (us ++ repeat false (length vs)) (rev vs ++ env) (lc ++ vs').
Proof.
  induction vs as [|v vs IH]; intros vs' us env lc L V; inversion V as [|? v' ? vs2 V1 V2]; subst; cbn [length repeat rev].
  - now rewrite !app_nil_r.
  - replace (us ++ false :: repeat false (length vs)) with ((us ++ [false]) ++ repeat false (length vs)) by now rewrite <- app_assoc.
    replace (lc ++ v' :: vs2) with ((lc ++ [v']) ++ vs2) by now rewrite <- app_assoc. rewrite <- (app_assoc (rev vs)). cbn [app].
    apply IH; auto. now apply lrel_push.
Qed.
Lemma nocell k env l : ~ cell (repeat false k) env l.
Proof. intros (i & H & _). apply nth_repeat' in H as (_ & H). discriminate. Qed.
Lemma frel_app W d FV fv cl : forall vs env, frel W d FV fv cl env -> frel W (d + length vs) FV fv cl (vs ++ env).
Proof.
  induction vs as [|v vs IH]; intros env H; cbn [length app]; [now rewrite Nat.add_0_r|].
  rewrite Nat.add_succ_r. apply frel_push. now apply IH.
Qed.
Lemma cell_app us : forall vs env l, cell (us ++ repeat false (length vs)) (rev vs ++ env) l <-> cell us env l.
Proof.
  intros vs. revert us. induction vs as [|v vs IH]; intros us env l; cbn [length repeat rev]; [now rewrite app_nil_r|].
  replace (us ++ false :: repeat false (length vs)) with ((us ++ [false]) ++ repeat false (length vs)) by now rewrite <- app_assoc.
  rewrite <- (app_assoc (rev vs)). cbn [app]. rewrite IH. apply cell_push.
Qed.
Lemma lrel_drop W s us : forall vs env lc, lrel W s (us ++ repeat false (length vs)) (rev vs ++ env) lc -> lrel W s us env (firstn (length us) lc).
Proof.
  intros vs. revert us. induction vs as [|v vs IH]; intros us env lc; cbn [length repeat rev].
  - cbn [app]. rewrite app_nil_r. intros L. rewrite firstn_all'; auto. apply L.
  - replace (us ++ false :: repeat false (length vs)) with ((us ++ [false]) ++ repeat false (length vs)) by now rewrite <- app_assoc.
    rewrite <- (app_assoc (rev vs)). cbn [app]. intros L. apply IH in L. apply lrel_pop in L. now rewrite firstn_cut in L.
Qed.

Section Main.
Variable F : Z -> option fundef.
Variable p : sprims.
Variable ar : primitive -> nat.
Variable shc shc2 : nat -> option lam.
Hypothesis NS : forall k, shc k = None.
Hypothesis PP : prims_par F p.
Notation inv := (inv F p).
Notation tr := (tr F).
Notation trl := (trl F).
Notation lev := (lev p ar shc).
Notation eval := (eval p ar F shc2).
Notation post := (post F p).
Notation psim := (psim F p ar shc shc2).

(** ** Calls *)
Lemma apps_sim n m : psim n -> (n < m)%nat -> forall xs xs' f f' s r s' W t gt,
  xapps (lev n) f xs s = Some (r, s') -> vr W f f' -> Forall2 (vr W) xs xs' -> inv W s t gt ->
  exists W' r' t' gt', apps F (fun fd args vs st g =>
        match eval m (f_fv fd) vs (f_body fd) (mkS args st g) with
        | Some (RV v, s') => Some (RV v, sto s', gl s')
        | Some (RX v, s') => Some (RX v, sto s', gl s')
        | _ => None
        end) f' xs' t gt = Some (r', t', gt') /\ pre W W' /\ inv W' s' t' gt' /\ rr W' r r' /\ same_cells W s s'.
Proof.
  intros IH NM. induction xs as [|x xs IHx]; intros xs' f f' s r s' W t gt H Vf Vx I; inversion Vx as [|? x' ? xs2 V1 V2]; subst; cbn [xapps apps] in *.
  - injection H as <- <-. exists W, (RV f'), t, gt. split; auto. split; [apply pre_refl|]. split; auto. split; auto. now intros l y.
  - destruct (fn_of s f) as [[env b0]|] eqn:EF; [|discriminate]. unfold fn_of in EF. destruct f as [| | l | |]; try discriminate.
    destruct (nth_error (xsto s) l) as [[|k env1]|] eqn:EL; try discriminate. destruct (nth_error (xfn s) (Z.to_nat k)) as [b1|] eqn:EK; [|discriminate].
    injection EF as -> ->. destruct (v_clo _ _ _ _ _ _ I _ _ _ EL) as (v1 & EW & FR). cbn [vr] in Vf. rewrite EW in Vf. injection Vf as ->.
    destruct FR as (b & j & l' & args' & lbl & vs' & fv & b' & args & env0 & A0 & A1 & A2 & A3 & A4 & A5 & A6 & A7 & A8 & A9).
    rewrite EK in A1. injection A1 as ->.
    unfold app1. replace (match f' with SLoc l0 => (l0, []) | SPap l0 a => (l0, a) | _ => (length t, []) end) with (l', args')
      by (destruct f'; cbn in A2; try discriminate; now injection A2 as <- <-).
    rewrite A3, A4. cbn [f_nargs f_fv f_body].
    assert (LA : length args = length args') by (eapply F2len; eauto).
    destruct j as [|j].
    + (* the last argument *) destruct (Nat.eqb_spec (length args' + 1) (1 + length args')) as [_|]; [|lia]. cbn [lfns] in *.
      destruct (lev n (x :: env) b s) as [[r1 s1]|] eqn:E1; [|discriminate].
      assert (EE : x :: env = rev (args ++ [x]) ++ env0) by (rewrite rev_unit, A6; reflexivity).
      assert (VA : Forall2 (vr W) (args ++ [x]) (args' ++ [x'])) by (apply Forall2_app; auto).
      assert (LL : (1 + length args')%nat = length (args ++ [x])) by (rewrite app_length; cbn; lia).
      assert (L : lrel W s (repeat false (1 + length args')) (x :: env) (loc (mkS (args' ++ [x']) t gt))).
      { cbn [loc]. rewrite EE, LL. change (repeat false (length (args ++ [x]))) with ([] ++ repeat false (length (args ++ [x]))).
        change (args' ++ [x']) with ([] ++ (args' ++ [x'])). apply lrel_app; auto. apply lrel_nil. }
      assert (FR : frel W (length (repeat false (1 + length args'))) fv fv vs' (x :: env)).
      { rewrite repeat_length, LL, EE, <- rev_length. change (length (rev (args ++ [x]))) with (O + length (rev (args ++ [x])))%nat. apply frel_app.
        intros id Hid. split; auto. destruct (A9 id Hid) as (v & i & v' & B1 & B2 & B3 & B4). exists v, i, v'. auto. }
      destruct (IH m fv _ _ _ fv vs' _ _ (mkS (args' ++ [x']) t gt) W _ _ NM A5 E1 I L FR) as (W1 & r1' & x1 & C1 & (C2 & C3 & C4 & C5) & C6).
      rewrite C1. assert (SC : same_cells W s s1). { intros c y H1 H2. eapply C5; eauto. apply nocell. }
      destruct r1 as [v | v |], r1' as [v' | v' |]; try contradiction; try discriminate.
      * destruct (IHx _ _ _ _ _ _ W1 _ _ H C6 (vrs_mono _ _ _ _ C2 V2) C3) as (W2 & r2' & t2 & g2 & D1 & D2 & D3 & D4 & D5). rewrite D1.
        exists W2, r2', t2, g2. split; auto. split; [eapply pre_trans; eauto|]. split; auto. split; auto.
        intros c y H1 H2. apply D5; auto. eapply pre_nth; eauto.
      * injection H as <- <-. exists W1, (RX v'), (sto x1), (gl x1). split; auto.
    + (* more arguments to come *) destruct (Nat.eqb_spec (length args' + 1) (S (S j) + length args')) as [|_]; [lia|].
      destruct n as [|n]; [discriminate|]. cbn [lfns Lam_Spec.lev alloc_fn] in H.
      set (W1 := W ++ [Some (SPap l' (args' ++ [x']))]). set (s1 := mkX (xsto s ++ [Clo (Z.of_nat (length (xfn s))) (x :: env)]) (xgl s) (xfn s ++ [lfns j b])) in *.
      assert (P : pre W W1) by apply pre_app.
      assert (I1 : inv W1 s1 t gt).
      { unfold W1, s1. rewrite <- (app_nil_r t). apply inv_clos; auto. intros [|i] c E; [|destruct i; discriminate]. injection E as <-.
        eexists _, _, _. split; [reflexivity|]. split; [reflexivity|]. rewrite app_nil_r.
        exists b, j, l', (args' ++ [x']), lbl, vs', fv, b', (args ++ [x]), env0. split; [lia|]. split; [rewrite Nat2Z.id; apply nth_last|]. split; auto. split; auto.
        rewrite app_length. cbn [length]. replace (S j + (length args' + 1))%nat with (S (S j) + length args')%nat by lia. split; auto. split; auto.
        split. { rewrite rev_unit, A6. reflexivity. } split. { apply Forall2_app; [|constructor; auto]; [eapply vrs_mono; eauto | eapply vr_mono; eauto]. }
        split; auto. eapply cvars_mono; eauto. }
      assert (V3 : vr W1 (SLoc (length (xsto s))) (SPap l' (args' ++ [x']))).
      { cbn [vr]. unfold W1. rewrite <- (v_len _ _ _ _ _ _ I). apply nth_last. }
      destruct (IHx _ _ _ _ _ _ W1 _ _ H V3 (vrs_mono _ _ _ _ P V2) I1) as (W2 & r2' & t2 & g2 & D1 & D2 & D3 & D4 & D5). rewrite D1.
      exists W2, r2', t2, g2. split; auto. split; [eapply pre_trans; eauto|]. split; auto. split; auto.
      intros c y H1 H2. apply D5; [eapply pre_nth; eauto|]. cbn [xsto s1]. eapply pre_nth; eauto using pre_app.
Qed.

(** ** Closures *)
Lemma clo_vars W s us env FV fv cl lc fvs : lrel W s us env lc -> frel W (length us) FV fv cl env ->
  (forall id, In id fvs -> id < 0 /\ (zl us + id < 0 -> In (zl us + id) FV) /\ (0 <= zl us + id -> nth_error us (Z.to_nat (zl us + id)) = Some false)) ->
  exists vs', vars fv cl lc (map (fun id => zl us + id) fvs) = Some vs' /\ length vs' = length fvs /\ cvars W fvs vs' env.
Proof.
  intros L FR H.
  assert (G : forall id, In id fvs -> exists v v', nth_error env (Z.to_nat (-1 - id)) = Some v /\ var fv cl lc (zl us + id) = Some v' /\ vr W v v').
  { intros id Hid. destruct (H id Hid) as (N & H1 & H2). unfold var. destruct (zl us + id <? 0) eqn:E.
    - destruct (FR _ (H1 ltac:(lia))) as (_ & v & i & v' & B1 & B2 & B3 & B4). rewrite B2. exists v, v'. split; auto.
      replace (Z.to_nat (-1 - id)) with (length us + Z.to_nat (-1 - (zl us + id)))%nat by lia. auto.
    - destruct (l_at _ _ _ _ _ L _ _ (H2 ltac:(lia))) as (v & v' & B1 & B2 & B3). exists v, v'. split; auto.
      replace (Z.to_nat (-1 - id)) with (length us - 1 - Z.to_nat (zl us + id))%nat by lia. auto. }
  destruct (vars_spec fv cl lc (fun id => zl us + id) fvs) as (vs' & E1 & E2).
  { intros id Hid. destruct (G id Hid) as (v & v' & _ & B & _). eauto. }
  exists vs'. split; auto. split.
  { clear - E1. revert vs' E1. induction fvs as [|x fvs IH]; intros vs' E; cbn [map vars] in E; [now injection E as <-|].
    destruct (var _ _ _ _); [|discriminate]. destruct (vars _ _ _ _) as [l|]; [|discriminate]. injection E as <-. cbn. f_equal. auto. }
  intros id Hid. destruct (G id Hid) as (v & v' & B1 & B2 & B3). destruct (fv_index_in fvs id 0 Hid) as (i & B4 & B5).
  exists v, (0 + Z.of_nat i), v'. split; auto. split; auto. split; auto. replace (Z.to_nat (0 + Z.of_nat i)) with i by lia. now rewrite (E2 _ _ B5).
Qed.

Lemma as_vars_map ns : as_vars (map Lvar ns) = Some ns.
Proof. induction ns; cbn; auto. now rewrite IHns. Qed.

(** ** Cases *)
Section Cases.
Variable T : lam -> lam -> Prop.
Notation cr x y := (fst x = fst y /\ T (snd x) (snd y)).
Definition orel (o o' : option lam) : Prop := match o, o' with Some e, Some e' => T e e' | None, None => True | _, _ => False end.
Lemma find_sim k : forall (cl cl' : list (Z * lam)), Forall2 (fun x y => cr x y) cl cl' -> orel (find_key k cl) (find_key k cl').
Proof.
  induction 1 as [|[a e] [a' e'] cl cl' (E & H) HS IH]; cbn; auto. cbn in E, H. subst a'. destruct (k =? a); auto.
Qed.
Lemma keys_sim {A} : forall (cl cl' : list (A * lam)), Forall2 (fun x y => cr x y) cl cl' -> map fst cl = map fst cl'.
Proof. induction 1 as [|x y cl cl' (E & H) HS IH]; cbn; congruence. Qed.
Lemma scon_sim : forall (cl cl' : list (scon * lam)), Forall2 (fun x y => cr x y) cl cl' -> forall l, scon_keys cl = Some l ->
  exists l', scon_keys cl' = Some l' /\ Forall2 (fun x y => cr x y) l l'.
Proof.
  induction 1 as [|[a e] [a' e'] cl cl' (E & H) HS IH]; intros l HL; cbn [scon_keys] in *.
  - injection HL as <-. eauto.
  - cbn in E, H. subst a'. destruct (scon_key a); [|discriminate]. destruct (scon_keys cl) as [l1|]; [|discriminate]. injection HL as <-.
    destruct (IH _ eq_refl) as (l' & -> & E2). eexists. split; [reflexivity|]. constructor; auto.
Qed.
Lemma case_sim W s t gt v v' cl cl' o : inv W s t gt -> vr W v v' -> Forall2 (fun x y => cr x y) cl cl' -> select_case p v cl (xsto s) = Some o ->
  exists o', select_case p v' cl' t = Some o' /\ orel o o'.
Proof.
  intros I V HS H. unfold select_case in *. assert (HS2 := HS). destruct HS2 as [|[a e] [a' e'] cl1 cl1' (E & HT) HS1]; [discriminate|]. cbn in E, HT. subst a'.
  destruct (scon_key a) eqn:EA.
  - destruct v as [n | | | |]; try discriminate. cbn [vr] in V. subst v'.
    destruct (scon_keys ((a, e) :: cl1)) as [l|] eqn:EK; [|discriminate]. destruct (scon_sim _ _ HS _ EK) as (l' & E1 & E2). rewrite E1, <- (keys_sim _ _ E2).
    destruct (distinct (map fst l)); [|discriminate]. injection H as <-. eexists. split; [reflexivity|]. now apply find_sim.
  - clear EA HS1 HT. remember ((a, e) :: cl1) as cl eqn:Ec. remember ((a, e') :: cl1') as cl' eqn:Ec'. clear Ec Ec' a e e' cl1 cl1'.
    induction HS as [|[a e] [a' e'] cl cl' (E & HT) HS IH]; cbn [find_case] in *; [injection H as <-; eexists; split; [reflexivity | exact Logic.I]|].
    cbn in E, HT. subst a'.
    assert (K : forall c k r, sxtest p c v (slit p k) (xsto s) = Some r -> sxtest p c v' (slit p k) t = Some r).
    { intros c k r HX. eapply (pp_test _ _ PP); eauto. apply I. }
    destruct a; try discriminate.
    + destruct (sxtest p (Pfloat_test PTeq) v (slit p _) (xsto s)) as [[|]|] eqn:EX; try discriminate; rewrite (K _ _ _ EX); [injection H as <-; eexists; split; [reflexivity | auto] | auto].
    + destruct (sxtest p (Pstring_test PTeq) v (slit p _) (xsto s)) as [[|]|] eqn:EX; try discriminate; rewrite (K _ _ _ EX); [injection H as <-; eexists; split; [reflexivity | auto] | auto].
Qed.
Lemma tag_sim W s t gt size v v' cl cl' o : inv W s t gt -> vr W v v' -> Forall2 (fun x y => cr x y) cl cl' -> select_tag size v cl (xsto s) = Some o ->
  exists o', select_tag size v' cl' t = Some o' /\ orel o o'.
Proof.
  intros I V HS H. unfold select_tag in *. destruct (stag (xsto s) v) as [k|] eqn:EK; [|discriminate]. erewrite vr_stag by eauto.
  assert (EF : forallb (fun c => (0 <=? fst c) && (fst c <? size)) cl' = forallb (fun c => (0 <=? fst c) && (fst c <? size)) cl).
  { clear - HS. induction HS as [|x y cl cl' (E & _) HS IH]; cbn; auto. now rewrite E, IH. }
  rewrite <- (keys_sim _ _ HS), EF, <- (F2len _ _ _ HS). destruct (_ && _); [|discriminate]. injection H as <-. eexists. split; [reflexivity|]. now apply find_sim.
Qed.
End Cases.

Lemma simple_tr : forall e e' FV us, tr FV us e e' -> simple e = true -> simple e' = true.
Proof.
  fix IH 1. intros e e' FV us H S. destruct e; try discriminate.
  - inversion H as [| | | | | | | ? ? ? ? J | | | | | | | | | | | | | | | ]; subst; auto. inversion J.
  - inversion H as [| | | | | | | ? ? ? ? J | | | | | | | | | | | | | | | ]; subst; auto. inversion J.
  - inversion H as [| | | | | | | ? ? ? ? J | | | | | | ? ? q xs xs' TS | | | | | | | | | ]; subst; auto; try discriminate; [inversion J|].
    cbn [simple] in *. destruct p0; try discriminate.
    + destruct TS; [auto | discriminate].
    + destruct es as [|x [|]]; try discriminate. inversion TS as [|? x' ? ? T1 T2]; subst. inversion T2; subst. apply (IH x x' _ _ T1 S).
Qed.

Lemma clo_map d fvs : map (fun id => Lvar (d + id)) fvs = map Lvar (map (fun id => d + id) fvs).
Proof. now rewrite map_map. Qed.

(** the closures of a letrec *)
Lemma clos_sim W s env FV us fv cl lc : lrel W s us env lc -> frel W (length us) FV fv cl env ->
  forall es es' bs, Forall2 (tr FV us) es es' -> as_fns es = Some bs ->
  exists cs ts, as_clos es' = Some cs /\ length cs = length es /\ clos_blocks fv cl lc cs = Some ts /\ length ts = length es /\
    (match cs with [(_, n :: ns)] => forallb (fun m => negb (m =? zl us - 1)) ns = true | _ => True end) /\ length bs = length es /\
    forall i b0, nth_error bs i = Some b0 -> exists lbl vs', nth_error ts i = Some (Clo lbl vs') /\
      forall k fns t' l', nth_error fns k = Some b0 -> nth_error t' l' = Some (Clo lbl vs') -> frelv F W fns t' (Z.of_nat k) env (SLoc l').
Proof.
  intros L FR. induction es as [|e es IH]; intros es' bs TS H; inversion TS as [|? e' ? es2 T1 T2]; subst; cbn [as_fns as_clos] in *.
  - injection H as <-. exists [], []. cbn. repeat (split; auto). intros [|i]; discriminate.
  - destruct e; try discriminate. match goal with H : context[Lfn ?z] |- _ => rename z into b0 end. destruct (as_fns es) as [bs1|] eqn:EB; [|discriminate]. injection H as <-.
    destruct (IH _ _ T2 eq_refl) as (cs & ts & A1 & A2 & A3 & A4 & _ & A6 & A5). clear IH.
    inversion T1 as [| | | | | | | ? ? ? ? J | | ? ? k b lbl fvs b' F1 Tb FC FD HX | | | | | | | | | | | | | ]; subst; [inversion J|]. clear T1.
    destruct (clo_vars _ _ _ _ _ _ _ _ fvs L FR FC) as (vs' & B1 & B2 & B3).
    exists ((lbl, map (fun id => zl us + id) fvs) :: cs), (Clo lbl vs' :: ts).
    rewrite clo_map. cbn [as_clo]. rewrite as_vars_map, map_length, Z.eqb_refl, A1. split; auto. cbn [length clos_blocks]. rewrite B1, A3. split; [lia|]. split; auto. split; [lia|]. split.
    { destruct cs; [|destruct fvs; cbn; auto]. destruct fvs as [|f0 fvs]; cbn [map]; auto. apply forallb_forall. intros x Hx. apply in_map_iff in Hx as (id & <- & Hid).
      specialize (FD id Hid). apply negb_true_iff. lia. }
    split; [lia|]. intros [|i] b1 E1.
    + injection E1 as <-. exists lbl, vs'. split; auto. intros k0 fns t' l' E2 E3.
      exists b, k, l', [], lbl, vs', fvs, b', [], env. split; [lia|]. rewrite Nat2Z.id. split; auto. split; auto. split; auto. cbn [length]. rewrite Nat.add_0_r. split; auto. split; auto.
      split; auto. split; [constructor|]. split; auto. intros id Hid. now apply FC.
    + apply (A5 i b1 E1).
Qed.

Lemma post_same W us env s s' W' x x' : pre W W' -> inv W' s' (sto x') (gl x') -> lrel W s us env (loc x) -> loc x' = loc x -> inv W s (sto x) (gl x) -> same_cells W s s' ->
  post W us env s s' W' x'.
Proof.
  intros P I L E I0 SC. split; auto. split; auto. split.
  - rewrite E. eapply lrel_mono; eauto. intros l b Hc. apply SC. eapply cell_lt; eauto.
  - intros l b H1 _ H2. auto.
Qed.

Theorem tr_sim : forall n, psim n.
Proof.
  induction n as [n IHs] using lt_wf_ind. intros m FV us e e' fv cl env s x W r s' NM T H I L FR.
  destruct n as [|n]; [discriminate|]. destruct m as [|m]; [lia|]. assert (NM' : (n < m)%nat) by lia.
  assert (IH : psim n) by (apply IHs; lia). assert (IHl : forall k, (k <= n)%nat -> psim k) by (intros k Hk; apply IHs; lia). clear IHs NM.
  assert (AT : forall id k, id = zl us - k - 1 -> 0 <= id -> nth_error us (Z.to_nat id) = Some true -> (k <? 0) = false /\
    exists l t v0 v', nth_error env (Z.to_nat k) = Some (SLoc l) /\ nth_error (loc x) (Z.to_nat id) = Some v' /\ nth_error W l = Some None /\ nth_error (xsto s) l = Some (Blk t [v0]) /\ vr W v0 v').
  { intros id k -> Hk HU. pose proof (nth_lt _ _ _ HU) as LT. split; [lia|]. destruct (l_at _ _ _ _ _ L _ _ HU) as (v & v' & E1 & E2 & l & t & v0 & -> & E3 & E4 & E5).
    exists l, t, v0, v'. replace (length us - 1 - Z.to_nat (zl us - k - 1))%nat with (Z.to_nat k) in E1 by lia. auto. }
  assert (SUB : forall a a' r1 s1, tr FV us a a' -> lev n env a s = Some (r1, s1) ->
    exists W' r' x', eval m fv cl a' x = Some (r', x') /\ post W us env s s1 W' x' /\ rr W' r1 r').
  { intros a a' r1 s1 T1 E1. eapply IH; eauto. }
  assert (SUB2 : forall s1 W1 x1 b b' r2 s2, post W us env s s1 W1 x1 -> tr FV us b b' -> lev n env b s1 = Some (r2, s2) ->
    exists W' r' x', eval m fv cl b' x1 = Some (r', x') /\ post W us env s s2 W' x' /\ rr W' r2 r' /\ pre W1 W').
  { intros s1 W1 x1 b b' r2 s2 P1 T1 E1. assert (P1' := P1). destruct P1' as (A1 & A2 & A3 & A4).
    destruct (IH m _ _ _ _ fv cl _ _ _ _ _ _ NM' T1 E1 A2 A3 (frel_mono _ _ _ _ _ _ _ FR A1)) as (W2 & r2' & x2 & B1 & B2 & B3).
    exists W2, r2', x2. split; auto. split; [eapply post_trans; eauto|]. split; auto. apply B2. }
  assert (DONE : forall v v' s1 W1 x1, post W us env s s1 W1 x1 -> vr W1 v v' ->
    exists W' r' x', Some (RV v', x1) = Some (r', x') /\ post W us env s s1 W' x' /\ rr W' (RV v) r').
  { intros v v' s1 W1 x1 P1 V1. exists W1, (RV v'), x1. auto. }
  inversion T as [? ? k id Hid Hfv Hus | ? ? k id Hid Hp Hus | ? ? k id Hid Hp Hus | ? ? k id a a' Hid Hp Hus Ta | ? ? c | | | ? ? ? ? J | ? ? f f' es es' Tf Tes
    | ? ? k b lbl fvs b' F1 Tb FC FD | ? ? es b es' b' Tl | ? ? a a' q Ta | ? ? es b es' b' Tes Tb | ? ? q es es' Tes | ? ? a a' cs cs' Ta Tc | ? ? sz a a' cs cs' Ta Tc
    | ? ? a a' b b' Ta Tb | ? ? a a' b b' Ta Tb | ? ? a a' b b' c c' Ta Tb Tc | ? ? a a' b b' Ta Tb | ? ? a a' b b' Ta Tb | ? ? a a' b b' Ta Tb | ? ? a a' b b' Ta Tb ]; subst; clear T.
  - (* a variable *) cbn [Lam_Spec.lev Back_Spec.eval] in *. destruct (k <? 0) eqn:Ek; [discriminate|]. destruct (nth_error env (Z.to_nat k)) as [v|] eqn:EV; [|discriminate]. injection H as <- <-.
    unfold var. destruct (zl us - k - 1 <? 0) eqn:E0.
    + destruct (FR _ (Hfv ltac:(lia))) as (_ & v1 & i & v' & B1 & B2 & B3 & B4). rewrite B2, B3. replace (length us + Z.to_nat (-1 - (zl us - k - 1)))%nat with (Z.to_nat k) in B1 by lia.
      rewrite EV in B1. injection B1 as <-. eapply DONE; eauto using post_refl.
    + destruct (nth_error us (Z.to_nat (zl us - k - 1))) as [u|] eqn:EU; [|apply nth_error_None in EU; lia].
      destruct u; [exfalso; apply Hus; [lia | auto]|]. destruct (l_at _ _ _ _ _ L _ _ EU) as (v1 & v' & B1 & B2 & B3). rewrite B2.
      replace (length us - 1 - Z.to_nat (zl us - k - 1))%nat with (Z.to_nat k) in B1 by lia. rewrite EV in B1. injection B1 as <-. eapply DONE; eauto using post_refl.
  - (* the contents of a reference *) destruct (AT _ _ eq_refl Hp Hus) as (Ek & l & t & v0 & v' & B1 & B2 & B3 & B4 & B5).
    destruct n as [|n]; [discriminate|]. cbn [Lam_Spec.lev ident_ok is_closure negb andb xlist_lr] in H. rewrite Ek, B1 in H. cbn in H. rewrite B4 in H. injection H as <- <-.
    cbn [Back_Spec.eval]. unfold var. destruct (zl us - k - 1 <? 0) eqn:E0; [lia|]. rewrite B2. replace (mkX (xsto s) (xgl s) (xfn s)) with s by now destruct s. eapply DONE; eauto using post_refl.
  - destruct (AT _ _ eq_refl Hp Hus) as (Ek & l & t & v0 & v' & B1 & B2 & B3 & B4 & B5).
    destruct n as [|n]; [discriminate|]. cbn [Lam_Spec.lev ident_ok is_closure negb andb xlist_lr xlist_let] in H. rewrite Ek, B1 in H. cbn [xbindL] in H.
    destruct n as [|n]; [discriminate|]. cbn in H. rewrite B4 in H. injection H as <- <-.
    cbn [Back_Spec.eval]. unfold var. destruct (zl us - k - 1 <? 0) eqn:E0; [lia|]. rewrite B2. replace (mkX (xsto s) (xgl s) (xfn s)) with s by now destruct s. eapply DONE; eauto using post_refl.
  - (* assignment *) destruct (AT _ _ eq_refl Hp Hus) as (Ek & l & t & v0 & v' & B1 & B2 & B3 & B4 & B5). clear AT.
    cbn [Lam_Spec.lev ident_ok is_closure negb andb xlist_lr] in H. destruct n as [|n]; [discriminate|].
    change (Lam_Spec.lev p ar shc (S n) env (Lvar k) s) with (if k <? 0 then None else match nth_error env (Z.to_nat k) with Some v => Some (RV v, s) | None => None end) in H.
    rewrite Ek, B1 in H. destruct (lev (S n) env a s) as [[r1 s1]|] eqn:E1; [|discriminate].
    destruct (SUB _ _ _ _ Ta E1) as (W1 & r1' & x1 & C1 & C2 & C3). cbn [Back_Spec.eval]. rewrite C1. clear SUB SUB2 DONE.
    destruct r1 as [v | v |], r1' as [w' | w' |]; try contradiction.
    + cbn [bindV xbindL] in *. assert (C2' := C2). destruct C2' as (D1 & D2 & D3 & D4).
      set (id := zl us - k - 1) in *. destruct (l_at _ _ _ _ _ D3 _ _ Hus) as (y & y' & E2 & E3 & l1 & t1 & v1 & -> & E4 & E5 & E6).
      replace (length us - 1 - Z.to_nat id)%nat with (Z.to_nat k) in E2 by lia. rewrite B1 in E2. injection E2 as <-.
      cbn in H. rewrite E5 in H. cbn in H. injection H as <- <-.
      assert (LT : id < zl (loc x1)). { rewrite (l_len _ _ _ _ _ D3). apply nth_lt in Hus. lia. }
      destruct (0 <=? id) eqn:E0; [|lia]. destruct (id <? zl (loc x1)) eqn:E7; [|lia]. cbn [andb].
      eexists W1, _, _. split; [reflexivity|]. cbn [loc sto gl]. split; [|reflexivity].
      split; auto. cbn [loc sto gl]. split; [eapply inv_setc; eauto|]. split.
      * constructor.
        -- rewrite set_nth_length. apply D3.
        -- intros i u Hi. destruct (l_at _ _ _ _ _ D3 _ _ Hi) as (z & z' & G1 & G2 & G3). rewrite nth_error_set_nth. cbn [xsto].
           destruct (Nat.eqb_spec i (Z.to_nat id)).
           ++ subst i. rewrite G2. rewrite Hus in Hi. injection Hi as <-. destruct G3 as (l2 & t2 & v2 & -> & G4 & G5 & G6).
              replace (length us - 1 - Z.to_nat id)%nat with (Z.to_nat k) in * by lia. rewrite B1 in G1. injection G1 as <-. rewrite E5 in G5. injection G5 as <- <-.
              exists (SLoc l), w'. split; auto. split; auto. exists l, t1, v. split; auto. split; auto. split; auto. rewrite nth_error_set_nth, Nat.eqb_refl, E5. reflexivity.
           ++ exists z, z'. split; auto. split; auto. destruct u; auto. destruct G3 as (l2 & t2 & v2 & -> & G4 & G5 & G6). exists l2, t2, v2. split; auto. split; auto. split; auto.
              rewrite nth_error_set_nth. destruct (Nat.eqb_spec l2 l); auto. subst l2. destruct n0. apply (l_inj _ _ _ _ _ D3 i (Z.to_nat id) l); auto.
              replace (length us - 1 - Z.to_nat id)%nat with (Z.to_nat k) by lia. auto.
        -- apply D3.
      * intros c y H1 H2 H3. cbn [xsto]. rewrite nth_error_set_nth. destruct (Nat.eqb_spec c l); [|apply D4; auto]. subst c. destruct H2.
        exists (Z.to_nat id). split; auto. replace (length us - 1 - Z.to_nat id)%nat with (Z.to_nat k) by lia. auto.
    + cbn in H. injection H as <- <-. exists W1, (RX w'), x1. auto.
    + cbn in H. injection H as <- <-. exists W1, RF, x1. auto.
  - (* a constant *) cbn [Lam_Spec.lev Back_Spec.eval] in *. injection H as <- <-. eapply DONE; [now apply post_refl|]. destruct c; try reflexivity. apply I.
  - cbn [Lam_Spec.lev Back_Spec.eval] in *. injection H as <- <-. exists W, RF, x. split; auto. split; [now apply post_refl | exact Logic.I].
  - cbn [Lam_Spec.lev Back_Spec.eval] in *. injection H as <- <-. eapply DONE; [now apply post_refl|]. reflexivity.
  - destruct J; cbn in H; [discriminate|]. rewrite NS in H. discriminate.
  - (* a call *) cbn [Lam_Spec.lev Back_Spec.eval] in *. destruct es as [|e0 es]; [discriminate|]. destruct es' as [|e0' es']; [inversion Tes|].
    destruct (xlist_rl (lev n env) (e0 :: es) s) as [[r1 s1]|] eqn:E1; [|discriminate].
    destruct (rl_sim F p ar shc shc2 n IH m NM' _ _ _ _ _ _ _ Tes _ _ _ _ _ E1 I L FR) as (W1 & r1' & x1 & C1 & C2 & C3). rewrite C1.
    destruct r1 as [vs | v |], r1' as [vs' | v' |]; try contradiction.
    + cbn [xbindL bindL] in *. destruct (lev n env f s1) as [[r2 s2]|] eqn:E2; [|discriminate]. destruct (SUB2 _ _ _ _ _ _ _ C2 Tf E2) as (W2 & r2' & x2 & D1 & D2 & D3 & P12). rewrite D1.
      destruct r2 as [vf | v |], r2' as [vf' | v' |]; try contradiction.
      * cbn [xbindV bindV] in *. destruct D2 as (A1 & A2 & A3 & A4).
        destruct (apps_sim n m IH NM' _ _ _ _ _ _ _ _ _ _ H D3 (vrs_mono _ _ _ _ P12 C3) A2) as (W3 & r3 & t3 & g3 & G1 & G2 & G3 & G4 & G5). rewrite G1.
        exists W3, r3, (mkS (loc x2) t3 g3). split; auto. split; auto. eapply post_trans; [split; [|split; [|split]]; eauto|].
        eapply post_same; eauto.
      * cbn in H. injection H as <- <-. exists W2, (RX v'), x2. auto.
      * cbn in H. injection H as <- <-. exists W2, RF, x2. auto.
    + cbn in H. injection H as <- <-. exists W1, (RX v'), x1. auto.
    + cbn in H. injection H as <- <-. exists W1, RF, x1. auto.
  - (* a function *) cbn [lfns Lam_Spec.lev alloc_fn] in H. injection H as <- <-.
    destruct (clo_vars _ _ _ _ _ _ _ _ fvs L FR FC) as (vs' & B1 & B2 & B3).
    assert (ER : evals_rl (eval m fv cl) (map Lvar (map (fun id => zl us + id) fvs)) x = Some (LV vs', x)) by (destruct m; [lia | now apply vars_rl]).
    rewrite clo_map. cbn [Back_Spec.eval ident_ok]. rewrite ER. cbn [bindL ev_lprim]. rewrite B2, Z.eqb_refl.
    eexists (W ++ [Some (SLoc (length (sto x)))]), _, _. split; [reflexivity|].
    assert (PW : pre W (W ++ [Some (SLoc (length (sto x)))])) by apply pre_app. split.
    + eapply post_same; [exact PW | | exact L | reflexivity | exact I |].
      * cbn [sto gl]. apply inv_clos; auto. intros [|i] c E; [|destruct i; discriminate]. injection E as <-. eexists _, _, _. split; [reflexivity|]. split; [reflexivity|].
        exists b, k, (length (sto x)), [], lbl, vs', fvs, b', [], env. split; [lia|]. rewrite Nat2Z.id. split; [apply nth_last|]. split; auto. split; [apply nth_last|].
        cbn [length]. rewrite Nat.add_0_r. split; auto. split; auto. split; auto. split; [constructor|]. split; [intros id Hid; now apply FC|]. eapply cvars_mono; eauto.
      * intros l y H1 H2. cbn [xsto]. eapply pre_nth; eauto using pre_app.
    + cbn [rr vr]. rewrite <- (v_len _ _ _ _ _ _ I). apply nth_last.
  - (* let *) cbn [Lam_Spec.lev Back_Spec.eval] in *. destruct (xlist_let (lev n) env es s) as [[r1 s1]|] eqn:E1; [|discriminate].
    destruct (lets_sim F p ar shc shc2 NS n IHl m NM' fv cl FV b b' _ _ _ _ _ _ _ _ _ Tl E1 I L FR) as (W1 & r1' & x1 & C1 & C2 & C3 & C4 & C5). rewrite C1.
    assert (LU : length (loc x) = length us) by apply L. rewrite LU.
    unfold let_post in C5. destruct r1 as [env1 | v |], r1' as [vs' | v' |]; try contradiction; cbn [xbindL] in H.
    + destruct C5 as (us1 & D1 & D2 & D3 & D4 & D5).
      destruct (IH m _ _ _ _ fv cl _ _ _ _ _ _ NM' D1 H C3 D2 D3) as (W2 & r2' & x2 & G1 & (G2 & G3 & G4 & G5) & G6). rewrite G1. cbn [cut].
      eexists W2, _, _. split; [reflexivity|]. split; auto. split; [eapply pre_trans; eauto|]. cbn [sto gl loc]. split; auto. split; [apply D5; auto|].
      intros l y H1 H2 H3. apply G5; [eapply pre_nth; eauto| |apply C4; auto]. intros Hc. apply H2, D4; auto. eapply nth_lt; eauto.
    + injection H as <- <-. destruct C5 as (D1 & D2). eexists W1, _, _. split; [reflexivity|]. split; [|exact D1]. split; auto.
    + injection H as <- <-. eexists W1, _, _. split; [reflexivity|]. split; [|exact Logic.I]. split; auto.
  - (* let with one definition, used once *) cbn [Lam_Spec.lev Back_Spec.eval xlist_let] in *. destruct (lev n env a s) as [[r1 s1]|] eqn:E1; [|discriminate].
    destruct (SUB _ _ _ _ Ta E1) as (W1 & r1' & x1 & C1 & C2 & C3).
    assert (EP : (match q with Pclosure _ _ => evals_rl (eval m fv cl) [a'] x | _ => evals_lr (eval m fv cl) [a'] x end) =
        match r1' with RV v' => Some (LV [v'], x1) | RX v' => Some (LX v', x1) | RF => Some (LF, x1) end).
    { assert (EX : evals_lr (eval m fv cl) [a'] x = match r1' with RV v' => Some (LV [v'], x1) | RX v' => Some (LX v', x1) | RF => Some (LF, x1) end).
      { cbn [evals_lr]. rewrite C1. destruct r1'; auto. }
      assert (EY : evals_rl (eval m fv cl) [a'] x = match r1' with RV v' => Some (LV [v'], x1) | RX v' => Some (LX v', x1) | RF => Some (LF, x1) end).
      { cbn [evals_rl]. rewrite C1. destruct r1'; auto. } destruct q; auto. }
    assert (ID : ident_ok q [a'] = true) by (destruct q as [ | | | | | | | []]; reflexivity). rewrite ID, EP. clear EP.
    destruct r1 as [v | v |], r1' as [v' | v' |]; try contradiction.
    + cbn [xbindL] in H. destruct n as [|n]; [discriminate|]. cbn [Lam_Spec.lev xlist_lr] in H.
      change (ident_ok q [Lvar 0]) with (ident_ok q [a']) in H.
      rewrite ID in H. destruct (is_closure q) eqn:EC; [discriminate|]. cbn [negb andb] in H.
      destruct n as [|n]; [discriminate|]. cbn in H.
      change (match xprim p ar q [v] s1 with Some z => Some z | None => None end) with (xprim p ar q [v] s1) in H.
      assert (C2' := C2). destruct C2' as (D1 & D2 & D3 & D4). cbn [bindL].
      destruct (prim_sim F p ar PP q [v] [v'] s1 r s' W1 x1 H ltac:(constructor; [exact C3 | constructor]) D2) as (W2 & r2 & x2 & G1 & G2 & G3 & G4 & G5 & G6). rewrite G1.
      exists W2, r2, x2. split; auto. split; auto. eapply post_trans; eauto. eapply post_same; eauto.
    + cbn in H. injection H as <- <-. exists W1, (RX v'), x1. auto.
    + cbn in H. injection H as <- <-. exists W1, RF, x1. auto.
  - (* letrec *) cbn [Lam_Spec.lev Back_Spec.eval] in *. destruct (as_fns es) as [bs|] eqn:EB; [|discriminate].
    destruct bs as [|b0 bs0]; [discriminate|]. remember (b0 :: bs0) as bs eqn:Ebs.
    set (ls := map (fun i => SLoc (length (xsto s) + i)) (seq 0 (length bs))) in *.
    set (ls' := map (fun i => SLoc (length (sto x) + i)) (seq 0 (length bs))).
    set (W1 := W ++ map Some ls').
    set (s1 := mkX (xsto s ++ map (fun i => Clo (Z.of_nat (length (xfn s) + i)) (rev ls ++ env)) (seq 0 (length bs))) (xgl s) (xfn s ++ bs)) in *.
    assert (PW : pre W W1) by apply pre_app.
    assert (LL : length ls = length bs) by (unfold ls; now rewrite map_length, seq_length).
    assert (LB : length bs = length es).
    { clear - EB. revert bs EB. induction es as [|e es IH]; intros bs E; cbn in E; [now injection E as <-|]. destruct e; try discriminate. destruct (as_fns es); [|discriminate]. injection E as <-. cbn. f_equal. auto. }
    assert (VL : Forall2 (vr W1) ls ls').
    { unfold ls, ls'. assert (G : forall l, (forall i, In i l -> (i < length bs)%nat) -> Forall2 (vr W1) (map (fun i => SLoc (length (xsto s) + i)) l) (map (fun i => SLoc (length (sto x) + i)) l)).
      { induction l as [|i l IHx]; intros HI; constructor; [|apply IHx; intros; apply HI; now right]. cbn [vr]. unfold W1.
        rewrite nth_error_app2 by (rewrite (v_len _ _ _ _ _ _ I); lia). rewrite (v_len _ _ _ _ _ _ I). replace (length (xsto s) + i - length (xsto s))%nat with i by lia.
        unfold ls'. rewrite map_map. rewrite nth_error_map. rewrite (nth_error_nth' _ O) by (rewrite seq_length; apply HI; now left). cbn [option_map]. rewrite seq_nth by (apply HI; now left). reflexivity. }
      apply G. intros i Hi. apply in_seq in Hi. lia. }
    set (us1 := us ++ repeat false (length es)) in *.
    assert (LX : lrel W1 s1 us1 (rev ls ++ env) (loc x ++ ls')).
    { unfold us1. rewrite <- LB, <- LL. apply lrel_app; auto. eapply lrel_mono; eauto. intros l y _ Hl. cbn [xsto s1]. eapply pre_nth; eauto using pre_app. }
    assert (FX : frel W1 (length us1) FV fv cl (rev ls ++ env)).
    { unfold us1. rewrite app_length, repeat_length, <- LB, <- LL, <- (rev_length ls). apply frel_app. eapply frel_mono; eauto. }
    destruct (clos_sim _ _ _ _ _ fv cl _ LX FX _ _ _ Tes EB) as (cs & ts & A1 & A2 & A3 & A4 & A5 & A6 & A7).
    rewrite A1. assert (LU : length (loc x) = length us) by apply L.
    assert (CO : clos_ok (length (loc x)) cs = true).
    { unfold clos_ok. destruct cs as [|[lbl [|n0 ns]] [|]]; auto. { cbn in A2. rewrite <- LB, Ebs in A2. discriminate. }
      replace (Z.of_nat (length (loc x))) with (zl us1 - 1); auto. unfold us1. rewrite app_length, repeat_length. cbn in A2. lia. }
    rewrite CO, A2, <- LB. fold ls'. rewrite A3.
    assert (I1 : inv W1 s1 (sto x ++ ts) (gl x)).
    { apply inv_clos; auto.
      - unfold ls'. now rewrite !map_length.
      - intros i c E. rewrite nth_error_map in E. destruct (nth_error (seq 0 (length bs)) i) as [j|] eqn:ES; [|discriminate]. injection E as <-.
        assert (HI : (i < length bs)%nat) by (apply nth_lt in ES; now rewrite seq_length in ES).
        assert (j = i). { rewrite (nth_error_nth' _ O) in ES by (rewrite seq_length; auto). rewrite seq_nth in ES by auto. now injection ES as <-. } subst j.
        destruct (nth_error bs i) as [bi|] eqn:EI; [|apply nth_error_None in EI; lia].
        destruct (A7 i bi EI) as (lbl & vs' & G1 & G2).
        eexists _, _, (SLoc (length (sto x) + i)). split; [reflexivity|]. split.
        { unfold ls'. rewrite map_map, nth_error_map, ES. reflexivity. }
        apply (G2 (length (xfn s) + i)%nat (xfn s ++ bs) (sto x ++ ts) (length (sto x) + i)%nat).
        + rewrite nth_error_app2 by lia. now replace (length (xfn s) + i - length (xfn s))%nat with i by lia.
        + rewrite nth_error_app2 by lia. now replace (length (sto x) + i - length (sto x))%nat with i by lia. }
    destruct (IH m _ _ _ _ fv cl _ _ (mkS (loc x ++ ls') (sto x ++ ts) (gl x)) _ _ _ NM' Tb H I1 LX FX) as (W2 & r2 & x2 & G1 & (G2 & G3 & G4 & G5) & G6). rewrite G1. cbn [cut].
    eexists W2, _, _. split; [reflexivity|]. split; auto. split; [eapply pre_trans; eauto|]. cbn [sto gl loc]. split; auto. rewrite LU. split.
    + unfold us1 in G4. rewrite <- LB, <- LL in G4. eapply lrel_drop; eauto.
    + intros l y H1 H2 H3. apply G5; [eapply pre_nth; eauto| |cbn [xsto s1]; eapply pre_nth; eauto using pre_app].
      unfold us1. rewrite <- LB, <- LL, cell_app. auto.
  - (* a primitive *) cbn [Lam_Spec.lev Back_Spec.eval] in *.
    assert (ID : ident_ok q es' = ident_ok q es) by (destruct q as [ | | | | | | | []]; cbn; auto; now rewrite (F2len _ _ _ Tes)).
    rewrite ID. destruct (ident_ok q es); [|discriminate]. destruct (is_closure q) eqn:EC; [discriminate|]. cbn [negb andb] in H.
    destruct (xlist_lr (lev n env) es s) as [[r1 s1]|] eqn:E1; [|discriminate].
    destruct (lr_sim F p ar shc shc2 n IH m NM' _ _ fv cl _ _ _ Tes _ _ _ _ _ E1 I L FR) as (W1 & r1' & x1 & C1 & C2 & C3).
    replace (match q with Pclosure _ _ => evals_rl (eval m fv cl) es' x | _ => evals_lr (eval m fv cl) es' x end) with (Some (r1', x1)) by (destruct q; auto; discriminate).
    destruct r1 as [vs | v |], r1' as [vs' | v' |]; try contradiction; cbn [bindL xbindL] in *.
    + assert (C2' := C2). destruct C2' as (D1 & D2 & D3 & D4).
      destruct (prim_sim F p ar PP q vs vs' s1 r s' W1 x1 H C3 D2) as (W2 & r2 & x2 & G1 & G2 & G3 & G4 & G5 & G6). rewrite G1.
      exists W2, r2, x2. split; auto. split; auto. eapply post_trans; eauto. eapply post_same; eauto.
    + injection H as <- <-. exists W1, (RX v'), x1. auto.
    + injection H as <- <-. exists W1, RF, x1. auto.
  - (* case *) cbn [Lam_Spec.lev Back_Spec.eval] in *. destruct (lev n env a s) as [[r1 s1]|] eqn:E1; [|discriminate].
    destruct (SUB _ _ _ _ Ta E1) as (W1 & r1' & x1 & C1 & C2 & C3). rewrite C1.
    destruct r1 as [v | v |], r1' as [v' | v' |]; try contradiction; cbn [xbindV bindV] in *;
      [|injection H as <- <-; eexists W1, _, x1; split; [reflexivity | auto]..].
    destruct (select_case p v cs (xsto s1)) as [o|] eqn:EO; [|discriminate]. assert (I1 : inv W1 s1 (sto x1) (gl x1)) by apply C2.
    destruct (case_sim _ _ _ _ _ _ _ _ _ _ I1 C3 Tc EO) as (o' & D1 & D2). rewrite D1. destruct o as [ea|], o' as [ea'|]; try contradiction.
    + destruct (SUB2 _ _ _ _ _ _ _ C2 D2 H) as (W2 & r2' & x2 & G1 & G2 & G3 & _). eauto 8.
    + injection H as <- <-. exists W1, RF, x1. auto.
  - (* switch *) cbn [Lam_Spec.lev Back_Spec.eval] in *.
    assert (SS : (sz =? 1) && negb (simple a') = false).
    { destruct (sz =? 1); auto. destruct (simple a) eqn:ES; [|discriminate]. cbn. now rewrite (simple_tr _ _ _ _ Ta ES). }
    destruct ((sz =? 1) && negb (simple a)); [discriminate|]. rewrite SS. destruct (lev n env a s) as [[r1 s1]|] eqn:E1; [|discriminate].
    destruct (SUB _ _ _ _ Ta E1) as (W1 & r1' & x1 & C1 & C2 & C3). rewrite C1.
    destruct r1 as [v | v |], r1' as [v' | v' |]; try contradiction; cbn [xbindV bindV] in *;
      [|injection H as <- <-; eexists W1, _, x1; split; [reflexivity | auto]..].
    destruct (select_tag sz v cs (xsto s1)) as [o|] eqn:EO; [|discriminate]. assert (I1 : inv W1 s1 (sto x1) (gl x1)) by apply C2.
    destruct (tag_sim _ _ _ _ _ _ _ _ _ _ _ I1 C3 Tc EO) as (o' & D1 & D2). rewrite D1. destruct o as [ea|], o' as [ea'|]; try contradiction.
    + destruct (SUB2 _ _ _ _ _ _ _ C2 D2 H) as (W2 & r2' & x2 & G1 & G2 & G3 & _). eauto 8.
    + injection H as <- <-. exists W1, RF, x1. auto.
  - (* static handle *) cbn [Lam_Spec.lev Back_Spec.eval] in *. destruct (lev n env a s) as [[r1 s1]|] eqn:E1; [|discriminate].
    destruct (SUB _ _ _ _ Ta E1) as (W1 & r1' & x1 & C1 & C2 & C3). rewrite C1.
    destruct r1 as [v | v |], r1' as [v' | v' |]; try contradiction.
    + injection H as <- <-. eexists W1, _, x1. split; [reflexivity | auto].
    + injection H as <- <-. eexists W1, _, x1. split; [reflexivity | auto].
    + destruct (SUB2 _ _ _ _ _ _ _ C2 Tb H) as (W2 & r2' & x2 & G1 & G2 & G3 & _). eauto 8.
  - (* handle *) cbn [Lam_Spec.lev Back_Spec.eval] in *. destruct (lev n env a s) as [[r1 s1]|] eqn:E1; [|discriminate].
    destruct (SUB _ _ _ _ Ta E1) as (W1 & r1' & x1 & C1 & C2 & C3). rewrite C1. assert (LU : length (loc x) = length us) by apply L.
    destruct r1 as [v | v |], r1' as [v' | v' |]; try contradiction; try discriminate.
    + injection H as <- <-. eexists W1, _, x1. split; [reflexivity | auto].
    + assert (C2' := C2). destruct C2' as (A1 & A2 & A3 & A4).
      assert (L1 : lrel W1 s1 (us ++ [false]) (v :: env) (loc x1 ++ [v'])) by (apply lrel_push; auto).
      assert (FX : frel W1 (length (us ++ [false])) FV fv cl (v :: env)). { rewrite app_length, Nat.add_1_r. apply frel_push. eapply frel_mono; eauto. }
      destruct (IH m _ _ _ _ fv cl _ _ (mkS (loc x1 ++ [v']) (sto x1) (gl x1)) _ _ _ NM' Tb H A2 L1 FX) as (W2 & r2 & x2 & G1 & (G2 & G3 & G4 & G5) & G6). rewrite G1. cbn [cut].
      eexists W2, _, _. split; [reflexivity|]. split; auto. split; [eapply pre_trans; eauto|]. cbn [sto gl loc]. split; auto. rewrite LU. split; [eapply lrel_pop; eauto|].
      intros l y H1 H2 H3. apply G5; [eapply pre_nth; eauto|rewrite cell_push; auto|apply A4; auto].
  - (* if *) cbn [Lam_Spec.lev Back_Spec.eval] in *. destruct (lev n env a s) as [[r1 s1]|] eqn:E1; [|discriminate].
    destruct (SUB _ _ _ _ Ta E1) as (W1 & r1' & x1 & C1 & C2 & C3). rewrite C1.
    destruct r1 as [v | v |], r1' as [v' | v' |]; try contradiction; cbn [xbindV bindV] in *;
      [|injection H as <- <-; eexists W1, _, x1; split; [reflexivity | auto]..].
    destruct (struth v) as [t|] eqn:ET; [|discriminate]. rewrite (vr_truth _ _ _ _ C3 ET).
    destruct t; [destruct (SUB2 _ _ _ _ _ _ _ C2 Tb H) as (W2 & r2' & x2 & G1 & G2 & G3 & _) | destruct (SUB2 _ _ _ _ _ _ _ C2 Tc H) as (W2 & r2' & x2 & G1 & G2 & G3 & _)]; eauto 8.
  - (* seq *) cbn [Lam_Spec.lev Back_Spec.eval] in *. destruct (lev n env a s) as [[r1 s1]|] eqn:E1; [|discriminate].
    destruct (SUB _ _ _ _ Ta E1) as (W1 & r1' & x1 & C1 & C2 & C3). rewrite C1.
    destruct r1 as [v | v |], r1' as [v' | v' |]; try contradiction; cbn [xbindV bindV] in *;
      [|injection H as <- <-; eexists W1, _, x1; split; [reflexivity | auto]..].
    destruct (SUB2 _ _ _ _ _ _ _ C2 Tb H) as (W2 & r2' & x2 & G1 & G2 & G3 & _). eauto 8.
  - (* while *) assert (TW : tr FV us (Lwhile a b) (Lwhile a' b')) by now constructor.
    cbn [Lam_Spec.lev Back_Spec.eval] in *. destruct (lev n env a s) as [[r1 s1]|] eqn:E1; [|discriminate].
    destruct (SUB _ _ _ _ Ta E1) as (W1 & r1' & x1 & C1 & C2 & C3). rewrite C1.
    destruct r1 as [v | v |], r1' as [v' | v' |]; try contradiction; cbn [xbindV bindV] in *;
      [|injection H as <- <-; eexists W1, _, x1; split; [reflexivity | auto]..].
    destruct (struth v) as [t|] eqn:ET; [|discriminate]. rewrite (vr_truth _ _ _ _ C3 ET). destruct t.
    + destruct (lev n env b s1) as [[r2 s2]|] eqn:E2; [|discriminate]. destruct (SUB2 _ _ _ _ _ _ _ C2 Tb E2) as (W2 & r2' & x2 & G1 & G2 & G3 & _). rewrite G1.
      destruct r2 as [v2 | v2 |], r2' as [v2' | v2' |]; try contradiction; cbn [xbindV bindV] in *;
        [|injection H as <- <-; eexists W2, _, x2; split; [reflexivity | auto]..].
      destruct (SUB2 _ _ _ _ _ _ _ G2 TW H) as (W3 & r3' & x3 & K1 & K2 & K3 & _). eauto 8.
    + injection H as <- <-. eapply DONE; eauto. reflexivity.
  - (* andalso *) cbn [Lam_Spec.lev Back_Spec.eval] in *. destruct (lev n env a s) as [[r1 s1]|] eqn:E1; [|discriminate].
    destruct (SUB _ _ _ _ Ta E1) as (W1 & r1' & x1 & C1 & C2 & C3). rewrite C1.
    destruct r1 as [v | v |], r1' as [v' | v' |]; try contradiction; cbn [xbindV bindV] in *;
      [|injection H as <- <-; eexists W1, _, x1; split; [reflexivity | auto]..].
    destruct (struth v) as [t|] eqn:ET; [|discriminate]. rewrite (vr_truth _ _ _ _ C3 ET). destruct t.
    + destruct (SUB2 _ _ _ _ _ _ _ C2 Tb H) as (W2 & r2' & x2 & G1 & G2 & G3 & _). eauto 8.
    + injection H as <- <-. eapply DONE; eauto.
  - (* orelse *) cbn [Lam_Spec.lev Back_Spec.eval] in *. destruct (lev n env a s) as [[r1 s1]|] eqn:E1; [|discriminate].
    destruct (SUB _ _ _ _ Ta E1) as (W1 & r1' & x1 & C1 & C2 & C3). rewrite C1.
    destruct r1 as [v | v |], r1' as [v' | v' |]; try contradiction; cbn [xbindV bindV] in *;
      [|injection H as <- <-; eexists W1, _, x1; split; [reflexivity | auto]..].
    destruct (struth v) as [t|] eqn:ET; [|discriminate]. rewrite (vr_truth _ _ _ _ C3 ET). destruct t.
    + injection H as <- <-. eapply DONE; eauto.
    + destruct (SUB2 _ _ _ _ _ _ _ C2 Tb H) as (W2 & r2' & x2 & G1 & G2 & G3 & _). eauto 8.
Qed.
End Main.
