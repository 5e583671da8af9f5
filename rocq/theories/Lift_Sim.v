(** A term and its translation (Lift_Rel.tr) mean the same. *)
From Verif Require Import Base Opcodes Back_Model Back_Spec Back_Sim Back_Frame Lam_Spec Lift_Rel Lift_Prim.

Lemma fv_index_in fv : forall id k, In id fv -> exists i, fv_index id k fv = Some (k + Z.of_nat i) /\ nth_error fv i = Some id.
Proof.
  induction fv as [|x fv IH]; intros id k H; [easy|]. cbn [fv_index]. destruct (x =? id) eqn:E.
  - exists O. apply Z.eqb_eq in E. subst. cbn. split; auto. f_equal. lia.
  - destruct H as [-> | H]; [lia|]. destruct (IH id (k + 1) H) as (i & E1 & E2). exists (S i). cbn [nth_error]. rewrite E1. split; auto. f_equal. lia.
Qed.
Lemma vars_spec fv cl ls (f : Z -> Z) : forall fvs, (forall id, In id fvs -> exists v', var fv cl ls (f id) = Some v') ->
  exists vs', vars fv cl ls (map f fvs) = Some vs' /\ forall i id, nth_error fvs i = Some id -> nth_error vs' i = var fv cl ls (f id).
Proof.
  induction fvs as [|x fvs IH]; intros H.
  - exists []. split; auto. intros [|i] id; discriminate.
  - destruct (H x (or_introl eq_refl)) as (v' & E). destruct IH as (vs' & E1 & E2). { intros. apply H. now right. }
    exists (v' :: vs'). cbn [map vars]. rewrite E, E1. split; auto. intros [|i] id; cbn; [now intros [= <-] | apply E2].
Qed.
Lemma vars_rl p ar F sh m fv cl x : forall ns vs', vars fv cl (loc x) ns = Some vs' ->
  evals_rl (eval p ar F sh (S m) fv cl) (map Lvar ns) x = Some (LV vs', x).
Proof.
  induction ns as [|n ns IH]; intros vs' H; cbn [vars map evals_rl] in *; [now injection H as <-|].
  destruct (var fv cl (loc x) n) as [v|] eqn:E; [|discriminate]. destruct (vars fv cl (loc x) ns) as [vs|]; [|discriminate]. injection H as <-.
  rewrite (IH _ eq_refl). cbn [eval]. now rewrite E.
Qed.

Section Sim.
Variable F : Z -> option fundef.
Variable p : sprims.
Variable ar : primitive -> nat.
Variable shc shc2 : nat -> option lam.
Hypothesis NS : forall k, shc k = None.
Hypothesis PP : prims_par F p.
Notation inv := (inv F p).
Notation tr := (tr F).
Notation trl := (trl F).
Notation lev := (lev p ar shc).
Notation eval := (eval p ar F shc2).
Notation post := (post F p).

Definition psim (n : nat) : Prop := forall m FV us e e' fv cl env s x W r s',
  (n < m)%nat -> tr FV us e e' -> lev n env e s = Some (r, s') ->
  inv W s (sto x) (gl x) -> lrel W s us env (loc x) -> frel W (length us) FV fv cl env ->
  exists W' r' x', eval m fv cl e' x = Some (r', x') /\ post W us env s s' W' x' /\ rr W' r r'.

Lemma lrr_mono W W' r r' : pre W W' -> lrr W r r' -> lrr W' r r'.
Proof. intros P. destruct r, r'; cbn; auto; [now apply vrs_mono | now apply vr_mono]. Qed.

Section Lists.
Variable n : nat.
Hypothesis IH : psim n.
Variable m : nat.
Hypothesis NM : (n < m)%nat.

Lemma rl_sim FV us fv cl env : forall es es', Forall2 (tr FV us) es es' -> forall s x W r s', xlist_rl (lev n env) es s = Some (r, s') ->
  inv W s (sto x) (gl x) -> lrel W s us env (loc x) -> frel W (length us) FV fv cl env ->
  exists W' r' x', evals_rl (eval m fv cl) es' x = Some (r', x') /\ post W us env s s' W' x' /\ lrr W' r r'.
Proof.
  induction 1 as [|e e' es es' T TS IHl]; intros s x W r s' H I L FR; cbn [xlist_rl evals_rl] in *.
  - injection H as <- <-. exists W, (LV []), x. split; auto. split; [now apply post_refl | constructor].
  - destruct (xlist_rl (lev n env) es s) as [[[vs | v |] s1]|] eqn:E; [| | |discriminate].
    + destruct (IHl _ _ _ _ _ E I L FR) as (W1 & r1 & x1 & E1 & P1 & R1). rewrite E1. destruct r1; try contradiction.
      assert (P1' := P1). destruct P1' as (A1 & A2 & A3 & A4).
      destruct (lev n env e s1) as [[r2 s2]|] eqn:E2; [|discriminate].
      destruct (IH m _ _ _ _ _ _ _ _ _ _ _ _ NM T E2 A2 A3 (frel_mono _ _ _ _ _ _ _ FR A1)) as (W2 & r2' & x2 & E3 & P2 & R2). rewrite E3.
      assert (PP2 : pre W1 W2) by apply P2.
      destruct r2 as [v | v |], r2' as [v' | v' |]; try contradiction; injection H as <- <-; eexists W2, _, x2; (split; [reflexivity|]); (split; [eapply post_trans; eauto|]); auto.
      constructor; auto. eapply vrs_mono; eauto.
    + injection H as <- <-. destruct (IHl _ _ _ _ _ E I L FR) as (W1 & r1 & x1 & E1 & P1 & R1). rewrite E1. exists W1, r1, x1. destruct r1; try contradiction. auto.
    + injection H as <- <-. destruct (IHl _ _ _ _ _ E I L FR) as (W1 & r1 & x1 & E1 & P1 & R1). rewrite E1. exists W1, r1, x1. destruct r1; try contradiction. auto.
Qed.
Lemma lr_sim FV us fv cl env : forall es es', Forall2 (tr FV us) es es' -> forall s x W r s', xlist_lr (lev n env) es s = Some (r, s') ->
  inv W s (sto x) (gl x) -> lrel W s us env (loc x) -> frel W (length us) FV fv cl env ->
  exists W' r' x', evals_lr (eval m fv cl) es' x = Some (r', x') /\ post W us env s s' W' x' /\ lrr W' r r'.
Proof.
  induction 1 as [|e e' es es' T TS IHl]; intros s x W r s' H I L FR; cbn [xlist_lr evals_lr] in *.
  - injection H as <- <-. exists W, (LV []), x. split; auto. split; [now apply post_refl | constructor].
  - destruct (lev n env e s) as [[r1 s1]|] eqn:E; [|discriminate].
    destruct (IH m _ _ _ _ _ _ _ _ _ _ _ _ NM T E I L FR) as (W1 & r1' & x1 & E1 & P1 & R1). rewrite E1.
    assert (P1' := P1). destruct P1' as (A1 & A2 & A3 & A4).
    destruct r1 as [v | v |], r1' as [v' | v' |]; try contradiction.
    + destruct (xlist_lr (lev n env) es s1) as [[r2 s2]|] eqn:E2; [|discriminate].
      destruct (IHl _ _ _ _ _ E2 A2 A3 (frel_mono _ _ _ _ _ _ _ FR A1)) as (W2 & r2' & x2 & E3 & P2 & R2). rewrite E3.
      assert (PP2 : pre W1 W2) by apply P2.
      destruct r2, r2'; try contradiction; injection H as <- <-; eexists W2, _, x2; (split; [reflexivity|]); (split; [eapply post_trans; eauto|]); auto.
      constructor; auto. eapply vr_mono; eauto.
    + injection H as <- <-. exists W1, (LX v'), x1. auto.
    + injection H as <- <-. exists W1, LF, x1. auto.
Qed.
End Lists.

(** a reference made in a definition *)
Lemma cell_ev FV us e tg e' n env s r s' : tr FV us e (Lprim (Pmakeblock tg 1) [e']) -> lev n env e s = Some (r, s') ->
  exists n1 e1, (n1 < n)%nat /\ tr FV us e1 e' /\
    match lev n1 env e1 s with
    | Some (RV v, s1) => r = RV (SLoc (length (xsto s1))) /\ s' = mkX (xsto s1 ++ [Blk tg [v]]) (xgl s1) (xfn s1)
    | Some (RX v, s1) => r = RX v /\ s' = s1
    | Some (RF, s1) => r = RF /\ s' = s1
    | None => False
    end.
Proof.
  intros T H. destruct n as [|n]; [discriminate|]. inversion T as [| | | | | | | ? ? ? ? J | | | | ? ? a a' q Ta | | ? ? q es es' TS | | | | | | | | | ]; subst.
  - destruct J; cbn in H; [discriminate|]. rewrite NS in H. discriminate.
  - (* let1 *) exists n, a. split; [lia|]. split; auto. cbn [Lam_Spec.lev xlist_let] in H.
    destruct (lev n env a s) as [[[v | v |] s1]|]; [| | |discriminate].
    + cbn [xbindL] in H. destruct n as [|n]; [discriminate|]. cbn [Lam_Spec.lev ident_ok is_closure negb andb xlist_lr] in H.
      destruct n as [|n]; [discriminate|]. cbn in H. injection H as <- <-. auto.
    + cbn [xbindL] in H. injection H as <- <-. auto.
    + cbn [xbindL] in H. injection H as <- <-. auto.
  - (* prim *) inversion TS as [|a a' ? ? Ta TS']; subst. inversion TS'; subst. exists n, a. split; [lia|]. split; auto.
    cbn [Lam_Spec.lev ident_ok is_closure negb andb xlist_lr] in H. destruct (lev n env a s) as [[[v | v |] s1]|]; [| | |discriminate].
    + cbn in H. injection H as <- <-. auto.
    + cbn in H. injection H as <- <-. auto.
    + cbn in H. injection H as <- <-. auto.
Qed.

Lemma firstn_cut {A} (us : list bool) u (lc : list A) : firstn (length us) (firstn (length (us ++ [u])) lc) = firstn (length us) lc.
Proof. rewrite firstn_firstn, app_length. f_equal. cbn. lia. Qed.
Lemma firstn_all' {A B} (l : list A) (l' : list B) : length l = length l' -> firstn (length l') l = l.
Proof. intros <-. apply firstn_all. Qed.

Section Lets.
Variable n : nat.
Hypothesis IH : forall k, (k <= n)%nat -> psim k.
Variable m : nat.
Hypothesis NM : (n < m)%nat.
Variable fv : list Z.
Variable cl : list sval.

Definition let_post FV us env b b' (W : w1) (s1 : xst) (W1 : w1) (x1 : sst) (r r' : lres) : Prop :=
  match r, r' with
  | LV env1, LV _ => exists us1, tr FV us1 b b' /\ lrel W1 s1 us1 env1 (loc x1) /\ frel W1 (length us1) FV fv cl env1 /\
      (forall l, (l < length W)%nat -> cell us1 env1 l -> cell us env l) /\
      (forall W s lc, lrel W s us1 env1 lc -> lrel W s us env (firstn (length us) lc))
  | LX v, LX v' => vr W1 v v' /\ lrel W1 s1 us env (firstn (length us) (loc x1))
  | LF, LF => lrel W1 s1 us env (firstn (length us) (loc x1))
  | _, _ => False
  end.

Lemma lets_sim FV b b' : forall es es' us env s x W r s1, trl FV us es b es' b' -> xlist_let (lev n) env es s = Some (r, s1) ->
  inv W s (sto x) (gl x) -> lrel W s us env (loc x) -> frel W (length us) FV fv cl env ->
  exists W1 r' x1, evals_let (eval m fv cl) es' x = Some (r', x1) /\ pre W W1 /\ inv W1 s1 (sto x1) (gl x1) /\ keeps W us env s s1 /\
    let_post FV us env b b' W s1 W1 x1 r r'.
Proof.
  induction es as [|e es IHl]; intros es' us env s x W r s1 T H I L FR; inversion T as [? ? ? ? Tb | ? ? ? e' ? ? es'' ? Te Tl | ? ? ? tg e' ? ? es'' ? Te Tl]; subst; cbn [xlist_let evals_let] in *.
  - injection H as <- <-. exists W, (LV []), x. split; auto. split; [apply pre_refl|]. split; auto. split; [now intros l y|].
    exists us. split; auto. split; auto. split; auto. split; auto. intros W2 s2 lc L2. rewrite firstn_all'; auto. apply L2.
  - destruct (lev n env e s) as [[r1 s2]|] eqn:E; [|discriminate].
    destruct (IH n (le_n _) m _ _ _ _ _ _ _ _ _ _ _ _ NM Te E I L FR) as (W2 & r1' & x2 & E1 & (A1 & A2 & A3 & A4) & R1). rewrite E1.
    destruct r1 as [v | v |], r1' as [v' | v' |]; try contradiction.
    + assert (L2 : lrel W2 s2 (us ++ [false]) (v :: env) (loc (mkS (loc x2 ++ [v']) (sto x2) (gl x2)))) by (apply lrel_push; auto).
      assert (F2 : frel W2 (length (us ++ [false])) FV fv cl (v :: env)).
      { rewrite app_length, Nat.add_1_r. apply frel_push. eapply frel_mono; eauto. }
      destruct (IHl _ _ _ s2 (mkS (loc x2 ++ [v']) (sto x2) (gl x2)) W2 r s1 Tl H A2 L2 F2) as (W1 & r' & x1 & E2 & B1 & B2 & B3 & B4).
      rewrite E2. exists W1, r', x1. split; auto. split; [eapply pre_trans; eauto|]. split; auto.
      assert (KP : forall l y, nth_error W l = Some None -> ~ cell us env l -> nth_error (xsto s2) l = Some y -> nth_error (xsto s1) l = Some y).
      { intros l y H1 H2 H3. apply B3; [exact (pre_nth _ _ _ _ A1 H1) | rewrite cell_push; auto | auto]. }
      split. { intros l y H1 H2 H3. apply KP; auto. }
      unfold let_post in *. destruct r, r'; try contradiction.
      * destruct B4 as (us1 & C1 & C2 & C3 & C4 & C5). exists us1. split; auto. split; auto. split; auto. split.
        { intros l Hl Hc. apply C4 in Hc; [now rewrite cell_push in Hc|]. destruct A1 as (y & ->). rewrite app_length. lia. }
        intros W3 s3 lc L3. apply C5 in L3. apply lrel_pop in L3. now rewrite firstn_cut in L3.
      * destruct B4 as (B4 & B5). split; auto. apply lrel_pop in B5. now rewrite firstn_cut in B5.
      * apply lrel_pop in B4. now rewrite firstn_cut in B4.
    + injection H as <- <-. exists W2, (LX v'), x2. split; auto. split; auto. split; auto. split; auto. split; auto. rewrite firstn_all'; auto. apply A3.
    + injection H as <- <-. exists W2, LF, x2. split; auto. split; auto. split; auto. split; auto. cbn. rewrite firstn_all'; auto. apply A3.
  - destruct (lev n env e s) as [[r1 s2]|] eqn:E; [|discriminate].
    destruct (cell_ev _ _ _ _ _ _ _ _ _ _ Te E) as (n1 & e1 & Hn & T1 & CE).
    destruct (lev n1 env e1 s) as [[r0 s0]|] eqn:E0; [|easy].
    assert (Hn1 : (n1 <= n)%nat) by lia. assert (Hm1 : (n1 < m)%nat) by lia.
    destruct (IH n1 Hn1 m _ _ _ _ _ _ _ _ _ _ _ _ Hm1 T1 E0 I L FR) as (W2 & r1' & x2 & E1 & (A1 & A2 & A3 & A4) & R1). rewrite E1.
    destruct r0 as [v | v |], r1' as [v' | v' |]; try contradiction; destruct CE as (-> & ->).
    + assert (LW : length W2 = length (xsto s0)) by apply A2.
      set (k := length (xsto s0)) in *. set (s2 := mkX (xsto s0 ++ [Blk tg [v]]) (xgl s0) (xfn s0)) in *.
      assert (P3 : pre W2 (W2 ++ [None])) by apply pre_app.
      assert (NC : ~ cell us env k). { intros Hc. apply (cell_lt F p W2 s0 _ _ us env (loc x2) k A2 A3) in Hc. apply nth_lt in Hc. unfold k in *. lia. }
      assert (L2 : lrel (W2 ++ [None]) s2 (us ++ [true]) (SLoc k :: env) (loc (mkS (loc x2 ++ [v']) (sto x2) (gl x2)))).
      { cbn [loc]. apply lrel_pushc with (t := tg) (v0 := v).
        - eapply lrel_mono; eauto. intros l y _ Hl. cbn [xsto s2]. eapply pre_nth; eauto using pre_app.
        - rewrite <- LW. apply nth_last.
        - apply nth_last.
        - eapply vr_mono; eauto.
        - auto. }
      assert (F2 : frel (W2 ++ [None]) (length (us ++ [true])) FV fv cl (SLoc k :: env)).
      { rewrite app_length, Nat.add_1_r. apply frel_push. eapply frel_mono; eauto. eapply pre_trans; eauto. }
      assert (I2 : inv (W2 ++ [None]) s2 (sto (mkS (loc x2 ++ [v']) (sto x2) (gl x2))) (gl (mkS (loc x2 ++ [v']) (sto x2) (gl x2)))) by (apply inv_cell; auto).
      destruct (IHl _ _ _ s2 (mkS (loc x2 ++ [v']) (sto x2) (gl x2)) _ r s1 Tl H I2 L2 F2) as (W1 & r' & x1 & E2 & B1 & B2 & B3 & B4).
      rewrite E2. exists W1, r', x1. split; auto. split; [eapply pre_trans; [|eauto]; eapply pre_trans; eauto|]. split; auto.
      assert (LK : forall l, (l < length W)%nat -> l <> k). { intros l Hl. destruct A1 as (y & ->). rewrite app_length in LW. lia. }
      assert (KP : forall l y, nth_error W l = Some None -> ~ cell us env l -> nth_error (xsto s0) l = Some y -> nth_error (xsto s1) l = Some y).
      { intros l y H1 H2 H3. apply B3; [eapply pre_nth; [|exact H1]; eapply pre_trans; eauto| |].
        - rewrite cell_pushc. intros [Hc | Hc]; auto. apply nth_lt in H1. apply LK in H1. auto.
        - cbn [xsto s2]. eapply pre_nth; eauto using pre_app. }
      split. { intros l y H1 H2 H3. apply KP; auto. }
      unfold let_post in *. destruct r, r'; try contradiction.
      * destruct B4 as (us1 & C1 & C2 & C3 & C4 & C5). exists us1. split; auto. split; auto. split; auto. split.
        { intros l Hl Hc. apply C4 in Hc; [rewrite cell_pushc in Hc; destruct Hc as [Hc | Hc]; auto; destruct (LK l); auto|].
          destruct A1 as (y & ->). rewrite !app_length. lia. }
        intros W3 s3 lc L3. apply C5 in L3. apply lrel_pop in L3. now rewrite firstn_cut in L3.
      * destruct B4 as (B4 & B5). split; auto. apply lrel_pop in B5. now rewrite firstn_cut in B5.
      * apply lrel_pop in B4. now rewrite firstn_cut in B4.
    + injection H as <- <-. exists W2, (LX v'), x2. split; auto. split; auto. split; auto. split; auto. split; auto. rewrite firstn_all'; auto. apply A3.
    + injection H as <- <-. exists W2, LF, x2. split; auto. split; auto. split; auto. split; auto. cbn. rewrite firstn_all'; auto. apply A3.
Qed.
End Lets.
End Sim.
