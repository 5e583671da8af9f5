(** Code that satisfies the relation of Back_Rel does what the evaluator of Back_Spec says: the parts of
    the proof that are not about one kind of term. *)
From Verif Require Import Base Opcodes Back_Model Back_Spec Back_Rel.
From Verif Require Import Back_Sim Back_Goal Back_Tree.

Record prims_ok (mp : prims) (p : sprims) (F : Z -> option fundef) : Prop := {
  po_prim : forall q vs avs b v s s' w h g gm, sprim p q vs s = Some (b, v, s') -> Forall2 (vrel F w s h) vs avs -> Inv F mp p w s h g gm ->
    exists a w' h', prim_sem mp q avs h = Some (b, a, h') /\ ext w s h w' s' h' /\ Inv F mp p w' s' h' g gm /\ vrel F w' s' h' v a;
  po_test : forall t a b av bv s r w h g gm, sxtest p t a b s = Some r -> vrel F w s h a av -> vrel F w s h b bv -> Inv F mp p w s h g gm ->
    xtest mp t av bv h = Some r;
  po_inv : forall t t' a b s r, invertBoolTest t = Ret t' -> (exists u, t = Pfloat_test u \/ t = Pstring_test u) ->
    sxtest p t a b s = Some r -> sxtest p t' a b s = Some (negb r);
  po_succ : forall v s r, sprim p (Psimple SMLADDINT) [v; SNum 1] s = Some r -> sprim p (Psimple SMLSUCCINT) [v] s = Some r;
  po_pred : forall v s r, sprim p (Psimple SMLSUBINT) [v; SNum 1] s = Some r -> sprim p (Psimple SMLPREDINT) [v] s = Some r;
  po_succ1 : prim_arity mp (Psimple SMLSUCCINT) = 1%nat;
  po_pred1 : prim_arity mp (Psimple SMLPREDINT) = 1%nat }.

Section Main.
Variable mp : prims.
Variable p : sprims.
Variable P : list instr.
Variable base : Z.
Variable F : Z -> option fundef.
Variable shc : nat -> option lam.
Variable nf : lam -> Prop.
Notation ar := (prim_arity mp).
Notation eval := (eval p ar F shc).
Notation step := (step mp P base).
Notation J := (J mp P base).
Notation vrel := (vrel F).
Notation Inv := (Inv F mp p).
Notation stk := (stk F).
Notation out := (out mp p P base F).
Notation goal := (goal mp P base F).
Notation abrt := (abrt mp P base F).
Notation land := (land mp P base F).
Notation retgoal := (retgoal mp P base F).
Notation rety_frame := (rety_frame base F).
Notation addPop_ok := (addPop_ok F).
Notation slots_le := (slots_le F).
Notation okC_same := (okC_same P).
Notation okC_mbr := (okC_mbr P).
Hypothesis CO : code_ok P F shc nf.

Definition envrel (w : world) (s : store) (cl : list sval) (e : value) : Prop :=
  cl = [] \/ exists l lbl ad, nth_error s l = Some (Clo lbl cl) /\ nth_error w l = Some ad /\ e = VPtr ad.
Lemma envrel_mono w s h w' s' h' cl e : ext w s h w' s' h' -> envrel w s cl e -> envrel w' s' cl e.
Proof.
  intros ((w2 & -> & _) & _ & _ & D) [-> | (l & lbl & ad & A & B & C)]; [now left|]. right. exists l, lbl, ad. split; auto. split; auto.
  rewrite nth_error_app1; auto. apply nth_error_Some. congruence.
Qed.

(** the machine's state matches that of the evaluator *)
Record conf (s : sst) (cl : list sval) (w : world) (h : heap_t) (gm : globals) (st R : list value) (x t : Z) (ev : value)
  (sf : Z * Z) (sz : Z) (vs : list Z) : Prop := {
  c_inv : Inv w (sto s) h (gl s) gm;
  c_stk : stk w (sto s) h vs (loc s) st;
  c_len : zlen st = sz;
  c_env : envrel w (sto s) cl ev;
  c_t : t <= sz + zlen R;
  c_sf : 0 <= snd sf <= sz;
  c_x : 0 <= x;
  c_base : base <= zlen R }.
Definition simE (n : nat) (e : lam) : Prop :=
  forall fv cl s r s', eval n fv cl e s = Some (r, s') ->
  forall K sf sz vs C O, cmp P K fv shc nf sf sz vs e C O ->
  forall w h gm st R x t ev acc, conf s cl w h gm st R x t ev sf sz vs -> okC R x t sz C ->
    out K R x t ev sf vs C (mkM (O ++ K) acc (st ++ R) ev x t h gm) w (sto s) h st r s'.
Definition sim (n : nat) : Prop := forall e, simE n e.

(** ** Composing *)
Lemma retgoal_J R x t w s h gm s0 s1 v : J s0 s1 -> retgoal R x t w s h gm s1 v -> retgoal R x t w s h gm s0 v.
Proof.
  intros HJ (A & B). split.
  - intros E. destruct (A E) as (a & V & H). exists a. split; auto. intros. eapply J_trans; eauto.
  - intros E l args lbl vs' fd H1 H2 H3. destruct (B E l args lbl vs' fd H1 H2 H3) as (L & acc & avs & ad & H4 & H5 & H6).
    split; auto. exists acc, avs, ad. split; auto. split; auto. eapply J_trans; eauto.
Qed.
Lemma land_seq R x t e vs st st1 w s h gm ls s0 s1 c Q : J s0 s1 -> keep vs st st1 ->
  land R x t e st1 vs w s h gm ls s1 c Q -> land R x t e st vs w s h gm ls s0 c Q.
Proof.
  intros HJ HK (st' & a & A & B & C & D). exists st', a. split; auto. split; [eapply keep_trans; eauto|]. split; auto.
  eapply J_trans; eauto.
Qed.
Lemma goal_seq K R x t e vs st st1 w s h gm ls s0 s1 C v : J s0 s1 -> keep vs st st1 ->
  goal K R x t e st1 vs w s h gm ls s1 C v -> goal K R x t e st vs w s h gm ls s0 C v.
Proof.
  intros HJ HK. unfold Back_Goal.goal. destruct (rety C). { apply retgoal_J; auto. }
  assert (G : forall c Q, land R x t e st1 vs w s h gm ls s1 c Q -> land R x t e st vs w s h gm ls s0 c Q) by (intros; eapply land_seq; eauto).
  destruct C as [|i C]; cbn [overwrites]; auto. destruct i; cbn [overwrites]; auto.
Qed.
Lemma abrt_seq R x t e vs st st1 w s h gm ls s0 s1 sf r : J s0 s1 -> keep vs st st1 ->
  abrt R x t e st1 vs w s h gm ls s1 sf r -> abrt R x t e st vs w s h gm ls s0 sf r.
Proof.
  intros HJ HK. destruct r; cbn [Back_Goal.abrt]; auto.
  - apply land_seq; auto.
  - intros (st' & a & A & B & C). exists st', a. split; auto. split; [eapply keep_trans; eauto|].
    destruct HK as (L & _). rewrite <- L. eapply J_trans; eauto.
Qed.
Lemma out_seq K R x t e sf vs C s0 s1 w s h w1 t1 h1 st st1 r s' :
  J s0 s1 -> ext w s h w1 t1 h1 -> keep vs st st1 ->
  out K R x t e sf vs C s1 w1 t1 h1 st1 r s' -> out K R x t e sf vs C s0 w s h st r s'.
Proof.
  intros HJ HE HK (w' & h' & gm' & A & B & D). exists w', h', gm'. split; [eapply ext_trans; eauto|]. split; auto.
  destruct r; [eapply goal_seq | eapply abrt_seq | eapply abrt_seq]; eauto.
Qed.
Lemma out_J K R x t e sf vs C s0 s1 w s h st r s' : J s0 s1 ->
  out K R x t e sf vs C s1 w s h st r s' -> out K R x t e sf vs C s0 w s h st r s'.
Proof. intros HJ. apply out_seq; auto using ext_refl, keep_refl. Qed.
Definition isV (r : res) : bool := match r with RV _ => true | _ => false end.
Lemma out_abrt K K' R x t e sf vs C C' s0 w s h st r s' : isV r = false ->
  out K R x t e sf vs C s0 w s h st r s' -> out K' R x t e sf vs C' s0 w s h st r s'.
Proof. intros HV (w' & h' & gm' & A & B & D). exists w', h', gm'. split; auto. split; auto. destruct r; auto. discriminate. Qed.
(** changing the continuation *)
Lemma out_goal K R x t e sf vs C C' s0 w s h st r s' :
  (forall v w' h' gm', r = RV v -> Inv w' (sto s') h' (gl s') gm' -> goal K R x t e st vs w' (sto s') h' gm' (loc s') s0 C v ->
     goal K R x t e st vs w' (sto s') h' gm' (loc s') s0 C' v) ->
  out K R x t e sf vs C s0 w s h st r s' -> out K R x t e sf vs C' s0 w s h st r s'.
Proof. intros HV (w' & h' & gm' & A & B & D). exists w', h', gm'. split; auto. split; auto. destruct r; eauto. Qed.

Lemma abrt_pop R x t e vs vs2 T st w s h gm ls s0 sf r :
  slots vs st -> (forall z, In z vs2 -> zlen st < z) -> 0 <= snd sf <= zlen st -> t <= zlen st + zlen R ->
  abrt R x t e (T ++ st) (vs ++ vs2) w s h gm ls s0 sf r -> abrt R x t e st vs w s h gm (firstn (length vs) ls) s0 sf r.
Proof.
  intros SL V2 Hs Ht. destruct r; cbn [Back_Goal.abrt]; auto.
  - intros H. eapply land_pop; eauto. intros a T' st' L L'. apply J_raise. rewrite app_length. unfold zlen in *. lia.
  - intros (st1 & a & A & B & D). pose proof (keep_drop _ _ _ _ _ B V2) as (T' & st' & -> & L & B').
    exists st', a. split. { eapply stk_unbind; eauto. eapply keep_slots; eauto. } split; auto.
    rewrite zlen_app in D. rewrite skipn_app, skipn_all2 in D by (unfold zlen in *; lia). cbn [app] in D.
    replace (Z.to_nat (zlen T + zlen st - snd sf) - length T')%nat with (Z.to_nat (zlen st - snd sf)) in D by (unfold zlen in *; lia).
    exact D.
Qed.
Definition cutS (n : nat) (s : sst) : sst := mkS (firstn n (loc s)) (sto s) (gl s).
Lemma out_pop K R x t e sf vs vs2 T st C s0 w s h r s' :
  slots vs st -> (forall z, In z vs2 -> zlen st < z) -> 0 <= snd sf <= zlen st -> 0 <= x -> okC R x t (zlen st) C ->
  out K R x t e sf (vs ++ vs2) (addPop (zlen T) C) s0 w s h (T ++ st) r s' ->
  out K R x t e sf vs C s0 w s h st r (cutS (length vs) s').
Proof.
  intros SL V2 Hs Hx HO (w' & h' & gm' & A & B & D). exists w', h', gm'. split; auto. split; auto.
  pose proof (okC_t _ _ _ _ _ (zlen_ge0 st) HO) as Ht. unfold cutS. cbn [loc sto gl].
  destruct r; [eapply goal_addPop; eauto | eapply abrt_pop; eauto | eapply abrt_pop; eauto].
Qed.
Lemma out_pop_abrt K K' R x t e sf vs vs2 T st C C' s0 w s h r s' : isV r = false ->
  slots vs st -> (forall z, In z vs2 -> zlen st < z) -> 0 <= snd sf <= zlen st -> t <= zlen st + zlen R ->
  out K R x t e sf (vs ++ vs2) C s0 w s h (T ++ st) r s' ->
  out K' R x t e sf vs C' s0 w s h st r (cutS (length vs) s').
Proof.
  intros HV SL V2 Hs Ht (w' & h' & gm' & A & B & D). exists w', h', gm'. split; auto. split; auto.
  unfold cutS. cbn [loc sto gl]. destruct r; [discriminate | eapply abrt_pop; eauto | eapply abrt_pop; eauto].
Qed.
Lemma abrt_len R x t e st vs w s h gm ls s0 sf r : abrt R x t e st vs w s h gm ls s0 sf r -> length vs = length ls.
Proof.
  destruct r; cbn; try easy; [intros (st' & a & A & _) | intros (st' & a & A & _)]; apply stk_len in A; unfold zlen in A; lia.
Qed.
(** the same without new variables *)
Lemma out_pop0 K K' R x t e sf vs T st C C' s0 w s h r s' : isV r = false ->
  slots vs st -> 0 <= snd sf <= zlen st -> t <= zlen st + zlen R ->
  out K R x t e sf vs C s0 w s h (T ++ st) r s' ->
  out K' R x t e sf vs C' s0 w s h st r s'.
Proof.
  intros HV SL Hs Ht HO. assert (E : cutS (length vs) s' = s').
  { destruct HO as (w' & h' & gm' & A & B & D). assert (L : length vs = length (loc s')) by (destruct r; [discriminate | eapply abrt_len; eauto | eapply abrt_len; eauto]).
    unfold cutS. rewrite L, firstn_all. now destruct s'. }
  rewrite <- E. apply (out_pop_abrt K K' R x t e sf vs [] T st C C' s0 w s h r s'); auto; [easy|]. now rewrite app_nil_r.
Qed.
(** a value at a place where it is taken from accu *)
Lemma out_plain K R x t e sf vs C s0 w s h st v s' : plain C = true ->
  out K R x t e sf vs C s0 w s h st (RV v) s' ->
  exists w' h' gm' st' a, ext w s h w' (sto s') h' /\ Inv w' (sto s') h' (gl s') gm' /\ stk w' (sto s') h' vs (loc s') st' /\
    keep vs st st' /\ vrel w' (sto s') h' v a /\ J s0 (mkM (C ++ K) a (st' ++ R) e x t h' gm').
Proof.
  intros HP (w' & h' & gm' & A & B & D). apply goal_plain in D; auto. destruct D as (st' & a & S1 & S2 & V & HJ).
  exists w', h', gm', st', a. auto 10.
Qed.
Lemma out_value K R x t e sf vs C s0 w s h st v s' w' h' gm' st' a :
  okC R x t (zlen st) C -> 0 <= x ->
  ext w s h w' (sto s') h' -> Inv w' (sto s') h' (gl s') gm' -> stk w' (sto s') h' vs (loc s') st' -> keep vs st st' ->
  vrel w' (sto s') h' v a -> J s0 (mkM (C ++ K) a (st' ++ R) e x t h' gm') ->
  out K R x t e sf vs C s0 w s h st (RV v) s'.
Proof.
  intros HO Hx A B S1 S2 V HJ. exists w', h', gm'. split; auto. split; auto. eapply goal_intro; eauto. exists st', a. auto.
Qed.
Lemma okC_plain R x t sz i C : t <= sz + zlen R -> match i with Kpop _ | Kreturn _ | Klabel _ => False | _ => True end -> okC R x t sz (i :: C).
Proof. intros H HI. split; auto. destruct i; cbn; auto; easy. Qed.

(** ** Application *)
Notation runB n := (fun fd args vs st g =>
  match eval n (f_fv fd) vs (f_body fd) (mkS args st g) with
  | Some (RV v, s') => Some (RV v, sto s', gl s')
  | Some (RX v, s') => Some (RX v, sto s', gl s')
  | _ => None
  end).
Lemma argslots_S n : argslots (S n) = Z.of_nat (S n) :: argslots n.
Proof. unfold argslots. rewrite seq_S, map_app, rev_app_distr. reflexivity. Qed.
Lemma argslots_in n z : In z (argslots n) -> 1 <= z <= Z.of_nat n.
Proof. unfold argslots. rewrite <- in_rev. intros H. apply in_map_iff in H as (k & <- & H). apply in_seq in H. lia. Qed.
Lemma argslots_stk w s h ls avs : Forall2 (vrel w s h) ls avs -> stk w s h (argslots (length ls)) ls avs.
Proof.
  induction 1 as [|v a ls avs V H IH].
  - split; [split; [constructor|]|]. easy. constructor.
  - cbn [length]. rewrite argslots_S. pose proof (F2len H) as L. split.
    + split. { constructor. intros Hi. apply argslots_in in Hi. lia. destruct IH as ((A & _) & _). auto. }
      intros z [<- | Hi]; [rewrite zlen_cons; unfold zlen; lia|]. apply argslots_in in Hi. rewrite zlen_cons. unfold zlen. lia.
    + constructor. { exists a. split; auto. replace (Z.of_nat (S (length ls))) with (zlen avs + 1) by (unfold zlen; lia). apply slot_top. }
      destruct (stk_push _ _ _ _ _ _ _ [a] IH) as (_ & IH2). exact IH2.
Qed.
Lemma frame_ok_app R x l : frame_ok R x -> frame_ok (l ++ R) (x + zlen l).
Proof.
  intros (xb & c & e & x0 & R2 & -> & L). exists (l ++ xb), c, e, x0, R2. split; [now rewrite app_assoc|]. rewrite zlen_app. lia.
Qed.
Lemma frame_ok_x R x : frame_ok R x -> 0 <= x.
Proof. intros (xb & c & e & x0 & R2 & -> & L). pose proof (zlen_ge0 xb). lia. Qed.

Lemma apply_sim n (IH : sim n) : forall xs f l args lbl vs' fd s g r s' g', xs <> [] ->
  func f = Some (l, args) -> nth_error s l = Some (Clo lbl vs') -> F lbl = Some fd -> (length args < f_nargs fd)%nat ->
  apps F (runB n) f xs s g = Some (r, s', g') ->
  forall w h gm avs xavs ad acc R x t, Inv w s h g gm -> Forall2 (vrel w s h) args avs -> Forall2 (vrel w s h) xs xavs ->
    nth_error w l = Some ad -> frame_ok R x -> t <= zlen R -> base <= zlen R ->
    let s0 := mkM (target P lbl) acc (avs ++ xavs ++ R) (VPtr ad) (x + zlen avs + zlen xavs - 1) t h gm in
    exists w' h' gm', ext w s h w' s' h' /\ Inv w' s' h' g' gm' /\
      match r with
      | RV v => retgoal R x t w' s' h' gm' s0 v
      | RX v => exists a, vrel w' s' h' v a /\ forall e x', J s0 (mkM [Kraise] a R e x' t h' gm')
      | RF => False
      end.
Proof.
  induction xs as [|x1 xs IHx]; intros f l args lbl vs' fd s g r s' g' NE Ff S1 F1 L1 HA w h gm avs xavs ad acc R x t I V1 V2 W1 FO Ht Hb; [easy|].
  cbn zeta. inversion V2 as [|? a1 ? xavs' Va V2']; subst. rename xavs' into xavs.
  pose proof (frame_ok_x _ _ FO) as Hx. pose proof (F2len V1) as LA. pose proof (F2len V2') as LX.
  destruct (CO _ _ F1) as (N1 & K & C' & D & HC & HT1 & HTn).
  cbn [apps] in HA.
  assert (EA : app1 F (runB n) f x1 s g =
    if Nat.eqb (length args + 1) (f_nargs fd) then runB n fd (args ++ [x1]) vs' s g else Some (RV (SPap l (args ++ [x1])), s, g)).
  { unfold app1. destruct f; try discriminate; injection Ff as -> <-; rewrite S1, F1; reflexivity. }
  rewrite EA in HA. clear EA.
  destruct (Nat.eqb_spec (length args + 1) (f_nargs fd)) as [EN | EN].
  - (* the body is run *)
    assert (HB : J (mkM (target P lbl) acc (avs ++ (a1 :: xavs) ++ R) (VPtr ad) (x + zlen avs + zlen (a1 :: xavs) - 1) t h gm)
                   (mkM (C' ++ K) acc ((avs ++ [a1]) ++ xavs ++ R) (VPtr ad) (x + zlen xavs) t h gm)).
    { rewrite zlen_cons. rewrite <- !app_assoc. cbn [app]. pose proof (zlen_ge0 xavs). pose proof (zlen_ge0 avs).
      destruct (Nat.eq_dec (f_nargs fd) 1) as [E1 | E1].
      - rewrite HT1 by auto. assert (zlen avs = 0) by (unfold zlen; lia). replace (x + zlen avs + (1 + zlen xavs) - 1) with (x + zlen xavs) by lia. apply J_refl.
      - destruct HTn as (-> & _ & _); [lia|]. eapply J_step_l; [|apply J_refl]. cbn [Zam_Model.step pc extra].
        assert (zlen avs = Z.of_nat (f_nargs fd) - 1) by (unfold zlen; lia).
        destruct (_ >=? _) eqn:E; [|lia]. do 2 f_equal. lia. }
    destruct (eval n (f_fv fd) vs' (f_body fd) {| loc := args ++ [x1]; sto := s; gl := g |}) as [(r1 & s1)|] eqn:EB.
    2: discriminate HA.
    assert (V3 : Forall2 (vrel w s h) (args ++ [x1]) (avs ++ [a1])) by (apply Forall2_app; auto).
    pose proof (argslots_stk _ _ _ _ _ V3) as SK. rewrite app_length in SK. cbn [length] in SK. rewrite EN in SK.
    assert (ZL : zlen (avs ++ [a1]) = Z.of_nat (f_nargs fd)). { rewrite zlen_app. unfold zlen. cbn. lia. }
    pose proof (IH (f_body fd) _ _ _ _ _ EB _ _ _ _ _ _ HC w h gm (avs ++ [a1]) (xavs ++ R) (x + zlen xavs) t (VPtr ad) acc) as HS.
    cbn [sto loc gl] in HS.
    assert (OUT : out K (xavs ++ R) (x + zlen xavs) t (VPtr ad) (Nolabel, 0) (argslots (f_nargs fd)) (Kreturn (Z.of_nat (f_nargs fd)) :: D)
      (mkM (C' ++ K) acc ((avs ++ [a1]) ++ xavs ++ R) (VPtr ad) (x + zlen xavs) t h gm) w s h (avs ++ [a1]) r1 s1).
    { assert (OK : okC (xavs ++ R) (x + zlen xavs) t (Z.of_nat (f_nargs fd)) (Kreturn (Z.of_nat (f_nargs fd)) :: D)).
      { pose proof (zlen_ge0 xavs). split; [rewrite zlen_app; lia|]. cbn [okP]. split; auto. split; [now apply frame_ok_app|]. rewrite zlen_app. lia. }
      apply HS; auto. split; cbn [sto loc gl snd]; auto; try lia.
      - right. exists l, lbl, ad. auto.
      - apply (okC_t _ _ _ _ _) in OK; auto. lia.
      - pose proof (zlen_ge0 xavs). lia.
      - rewrite zlen_app. pose proof (zlen_ge0 xavs). lia. }
    clear HS. eapply out_J in OUT; [|exact HB]. destruct OUT as (w1 & h1 & gm1 & E1 & I1 & G1).
    destruct r1 as [v1 | v1 |]; [| |discriminate HA].
    + change (retgoal (xavs ++ R) (x + zlen xavs) t w1 (sto s1) h1 gm1
        (mkM (target P lbl) acc (avs ++ (a1 :: xavs) ++ R) (VPtr ad) (x + zlen avs + zlen (a1 :: xavs) - 1) t h gm) v1) in G1.
      destruct xs as [|x2 xs].
      * cbn [apps] in HA. injection HA as <- <- <-. inversion V2'; subst. cbn [app] in *. rewrite zlen_nil, Z.add_0_r in *.
        exists w1, h1, gm1. auto.
      * (* the result is applied to the other arguments *)
        destruct (func v1) as [(l2 & args2)|] eqn:Ff2.
        2: { exfalso. cbn [apps] in HA. unfold app1 in HA. destruct v1; try discriminate; rewrite (proj2 (nth_error_None _ _)) in HA by lia; discriminate. }
        assert (exists lbl2 vs2 fd2, nth_error (sto s1) l2 = Some (Clo lbl2 vs2) /\ F lbl2 = Some fd2) as (lbl2 & vs2 & fd2 & S2 & F2).
        { cbn [apps] in HA. unfold app1 in HA. destruct v1; try discriminate; injection Ff2 as -> <-;
          (destruct (nth_error (sto s1) l2) as [[]|]; try discriminate; destruct (F lbl0) eqn:EF; try discriminate; eauto). }
        destruct G1 as (_ & G1). assert (Hx' : 0 < x + zlen xavs). { unfold zlen. cbn in LX. lia. }
        destruct (G1 Hx' _ _ _ _ _ Ff2 S2 F2) as (L2 & acc2 & avs2 & ad2 & V4 & W2 & HJ2).
        destruct (IHx v1 l2 args2 lbl2 vs2 fd2 (sto s1) (gl s1) r s' g') with (w := w1) (h := h1) (gm := gm1) (avs := avs2) (xavs := xavs)
          (ad := ad2) (acc := acc2) (R := R) (x := x) (t := t) as (w2 & h2 & gm2 & E2 & I2 & G2); auto; try discriminate.
        { eapply vrels_mono; eauto. }
        exists w2, h2, gm2. split; [eapply ext_trans; eauto|]. split; auto.
        unfold vst in HJ2. replace (x + zlen xavs + zlen avs2 - 1) with (x + zlen avs2 + zlen xavs - 1) in HJ2 by lia.
        destruct r as [v | v |]; auto.
        -- eapply retgoal_J; eauto.
        -- destruct G2 as (a & Va2 & G2). exists a. split; auto. intros. eapply J_trans; eauto.
    + injection HA as <- <- <-. exists w1, h1, gm1. split; auto. split; auto.
      destruct G1 as (st' & a & A1 & A2 & A3 & A4). exists a. split; auto. intros e x'. eapply J_trans; [exact A4|].
      rewrite app_assoc. apply J_raise. exact Ht.
  - (* more arguments are needed *)
    assert (L2 : (length (args ++ [x1]) < f_nargs fd)%nat) by (rewrite app_length; cbn; lia).
    assert (V3 : Forall2 (vrel w s h) (args ++ [x1]) (avs ++ [a1])) by (apply Forall2_app; auto).
    assert (ES : avs ++ (a1 :: xavs) ++ R = (avs ++ [a1]) ++ xavs ++ R) by (rewrite <- app_assoc; reflexivity).
    assert (EX : x + zlen avs + zlen (a1 :: xavs) - 1 = x + zlen (avs ++ [a1]) + zlen xavs - 1) by (rewrite zlen_app, !zlen_cons, zlen_nil; lia).
    rewrite ES, EX. destruct xs as [|x2 xs].
    + cbn [apps] in HA. injection HA as <- <- <-. inversion V2'; subst. cbn [app]. rewrite zlen_nil.
      destruct (Z.eq_dec x 0) as [-> | Nx].
      * (* a closure is made *)
        destruct FO as (xb & c & e & x0 & R2 & -> & LB). apply zlen_0 in LB. subst xb. cbn [app] in *.
        set (nb := mkBlock Closure_tag (VRestart lbl :: VPtr ad :: avs ++ [a1])).
        exists w, (h ++ [nb]), gm. split; [apply ext_garbage|]. split; [now apply Inv_garbage|]. split; [|lia]. intros _.
        exists (VPtr (length h)). split.
        { cbn. exists (length h), lbl, vs', ad, (avs ++ [a1]), fd. split; auto. split.
          { intros Hi. apply (w_in_lt _ _ _ _ _ _ _ _ _ I) in Hi. lia. }
          split; auto. split; auto. split; auto. split; auto. split. { now destruct args. }
          split. { rewrite nth_error_app2, Nat.sub_diag by auto. reflexivity. }
          apply all_Forall2. eapply vrels_mono; [apply ext_garbage|auto]. }
        intros c' e' x0' R2' E. injection E as <- <- <- <-.
        eapply J_step_l; [|apply J_refl]. destruct HTn as (-> & _ & HG); [cbn in *; lia|]. cbn [Zam_Model.step pc extra].
        assert (ZL : zlen (avs ++ [a1]) < Z.of_nat (f_nargs fd)). { rewrite zlen_app. unfold zlen. cbn. rewrite app_length in L2. cbn in L2. lia. }
        destruct (_ >=? _) eqn:E; [lia|]. rewrite HG. cbn [Zam_Model.sp].
        rewrite ztake_app by (unfold zlen; lia). reflexivity.
      * exists w, h, gm. split; [apply ext_refl|]. split; auto. split; [lia|]. intros _ l2 args2 lbl2 vs2 fd2 Ff2 S2 F2.
        injection Ff2 as <- <-. rewrite S1 in S2. injection S2 as <- <-. rewrite F1 in F2. injection F2 as <-. split; auto.
        exists acc, (avs ++ [a1]), ad. split; auto. split; auto. unfold vst. rewrite Z.add_0_r. apply J_refl.
    + eapply (IHx (SPap l (args ++ [x1])) l (args ++ [x1]) lbl vs' fd); eauto. discriminate.
Qed.
End Main.
