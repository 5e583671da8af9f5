(** Proofs for C39: the decision dag leads to the first matching rule. *)
From Verif Require Import Base Match_Model Match_Proofs.

(** ** What holds whatever the value *)
Definition is_if (d : dec) : Prop := match d with IfEq _ (Tup _) _ _ => False | IfEq _ _ _ _ => True | _ => False end.
Record good (s : state) : Prop := {
  g_len : length (refs s) = length (nodes s);
  g_node : forall k o c t e, nth_error (nodes s) k = Some (IfEq o c t e) ->
    (t < k)%nat /\ (e < k)%nat /\ (0 < count s t)%nat /\ (0 < count s e)%nat }.
Definition ext2 (s s' : state) : Prop := (exists l, nodes s' = nodes s ++ l /\ Forall is_if l) /\ forall n, (count s n <= count s' n)%nat.
Lemma ext2_refl s : ext2 s s.
Proof. split; [exists []; rewrite app_nil_r; auto|auto]. Qed.
Lemma ext2_trans a b c : ext2 a b -> ext2 b c -> ext2 a c.
Proof.
  intros [(l & E & L) H] [(k & F & K) G]. split; [exists (l ++ k); rewrite F, E, app_assoc; split; [reflexivity|now apply Forall_app]|].
  intros n. specialize (H n). specialize (G n). lia.
Qed.
Lemma ext2_ext s s' : ext2 s s' -> ext s s'.
Proof. intros [(l & E & _) _]. now exists l. Qed.
Lemma ext2_len s s' : ext2 s s' -> (length (nodes s) <= length (nodes s'))%nat.
Proof. intros [(l & E & _) _]. rewrite E, app_length. lia. Qed.
Lemma incr_length n l : length (incr n l) = length l.
Proof. revert n. induction l as [|x l IH]; intros [|n]; cbn; auto. Qed.
Lemma incr_nth n l m : nth m (incr n l) 0%nat = (nth m l 0 + (if Nat.eqb m n && Nat.ltb n (length l) then 1 else 0))%nat.
Proof.
  revert n m. induction l as [|x l IH]; intros [|n] [|m]; cbn [incr nth length]; try (cbn; lia).
  - rewrite andb_false_r. lia.
  - rewrite IH. cbn. destruct (Nat.eqb m n); reflexivity.
Qed.
Lemma incrnode_ext2 n s : ext2 s (incrnode n s).
Proof.
  split; [exists []; rewrite app_nil_r; auto|]. intros m. unfold count, incrnode. cbn [refs]. rewrite incr_nth. lia.
Qed.
Lemma incr_pos n s : length (refs s) = length (nodes s) -> (n < length (nodes s))%nat -> (0 < count (incrnode n s) n)%nat.
Proof.
  intros G L. unfold count, incrnode. cbn [refs]. rewrite incr_nth, Nat.eqb_refl, G. destruct (Nat.ltb_spec n (length (nodes s))); [|lia]. cbn [andb]. lia.
Qed.
Lemma unique_static lookup obj c t1 t2 s n s' : good s -> (t1 < length (nodes s))%nat -> (t2 < length (nodes s))%nat -> (forall k, c <> Tup k) ->
  unique lookup obj c t1 t2 s = (n, s') -> good s' /\ ext2 s s' /\ (n < length (nodes s'))%nat.
Proof.
  intros G L1 L2 NT. unfold unique. destruct (Nat.eqb_spec t1 t2) as [->|NE].
  { intros E. injection E as <- <-. auto using ext2_refl. }
  set (node := IfEq obj c t1 t2). set (fresh := mkDecision node _).
  assert (FR : fresh = (n, s') -> good s' /\ ext2 s s' /\ (n < length (nodes s'))%nat).
  { unfold fresh, mkDecision. intros E. injection E as <- <-. set (s1 := incrnode t2 (incrnode t1 s)).
    assert (LR : length (refs s1) = length (nodes s)) by (unfold s1, incrnode; cbn [refs]; rewrite !incr_length; apply G).
    assert (CT : forall m, (m < length (nodes s))%nat -> count (ST (nodes s ++ [node]) (refs s1 ++ [0%nat])) m = count s1 m).
    { intros m Hm. unfold count. cbn [refs]. rewrite app_nth1; [reflexivity|lia]. }
    assert (E2 : ext2 s s1) by (unfold s1; eapply ext2_trans; apply incrnode_ext2).
    assert (C1 : (0 < count s1 t1)%nat).
    { destruct (incrnode_ext2 t2 (incrnode t1 s)) as [_ X]. specialize (X t1). fold s1 in X.
      pose proof (incr_pos t1 s (g_len _ G) L1). lia. }
    assert (C2 : (0 < count s1 t2)%nat).
    { unfold s1. apply incr_pos; [unfold incrnode; cbn [refs nodes]; rewrite incr_length; apply G|exact L2]. }
    assert (NS : nodes s1 = nodes s) by reflexivity. 
    set (s2 := ST (nodes s ++ [node]) (refs s1 ++ [0%nat])) in *. change (good s2 /\ ext2 s s2 /\ (length (nodes s) < length (nodes s2))%nat).
    unfold s2 in *. clear s2. clearbody s1.
    split; [|split].
    - constructor; cbn [nodes refs].
      + rewrite !app_length, LR. reflexivity.
      + intros k o c' t e X. destruct (Nat.lt_ge_cases k (length (nodes s))) as [K|K].
        * rewrite nth_error_app1 in X by exact K. destruct (g_node _ G k o c' t e X) as (A1 & A2 & A3 & A4).
          rewrite !CT by lia. destruct E2 as [_ Q]. pose proof (Q t). pose proof (Q e). lia.
        * rewrite nth_error_app2 in X by exact K. destruct (k - length (nodes s))%nat as [|j] eqn:J; [|destruct j; discriminate X].
          cbn in X. unfold node in X. injection X as <- <- <- <-. rewrite !CT by lia. lia.
    - split.
      + exists [node]. split; [reflexivity|]. constructor; [|constructor]. unfold node, is_if. destruct c as [|k| | |]; auto. destruct (NT k eq_refl).
      + intros m. destruct (Nat.lt_ge_cases m (length (nodes s))) as [K|K]; [rewrite CT by exact K; apply E2|].
        unfold count at 1. rewrite nth_overflow; [lia|]. rewrite (g_len _ G). exact K.
    - cbn [nodes]. rewrite app_length. cbn. lia. }
  destruct (lookup (nodes s) node) as [k|]; [|exact FR]. destruct (nth_error (nodes s) k) as [node'|] eqn:K; [|exact FR].
  destruct (dec_dec node' node); [|exact FR]. intros E. injection E as <- <-. split; [exact G|]. split; [apply ext2_refl|].
  apply nth_error_Some. congruence.
Qed.

Section Static.
Variable lookup : list dec -> dec -> option nat.
Variable failure : nat.
Variable objs1 : list lam.
Variable topctx : context.
Notation fail := (fail lookup failure objs1 topctx).
Notation succeed := (succeed lookup failure objs1 topctx).
Notation matchpat := (matchpat lookup failure objs1 topctx).
Definition ids_ok (rs : rules) (s : state) : Prop := (failure < length (nodes s))%nat /\ Forall (fun r => (snd r < length (nodes s))%nat) rs.
Lemma ids_ok_ext rs s s' : ids_ok rs s -> ext2 s s' -> ids_ok rs s'.
Proof.
  intros [A B] X. apply ext2_len in X. split; [lia|]. eapply Forall_impl; [|exact B]. cbn. intros. lia.
Qed.
Definition post (s : state) (o : outcome (nat * state)) : Prop :=
  forall n s', o = Ret (n, s') -> good s' /\ ext2 s s' /\ (n < length (nodes s'))%nat.
Lemma mktest_static f pcon obj d ctx w rs k s : (forall n, pcon <> Tup n) -> good s -> ids_ok rs s ->
  (forall d s, good s -> ids_ok rs s -> post s (f d rs s)) ->
  (forall d s', good s' -> ext2 s s' -> post s' (k d s')) ->
  post s (mktest lookup f pcon obj d ctx w rs k s).
Proof.
  intros NT G IR F K n s' E. unfold mktest in E. destruct (staticmatch pcon d).
  - eapply K; eauto using ext2_refl.
  - destruct (builddsc ctx d w) as [d1| | |]; try discriminate E. cbn [bind] in E. eapply F; eauto.
  - destruct (k (Pos pcon (bots (arity pcon))) s) as [[t s1]| | |] eqn:E1; try discriminate E. cbn [bind] in E.
    destruct (builddsc ctx (addneg d pcon) w) as [d1| | |]; try discriminate E. cbn [bind] in E.
    destruct (f d1 rs s1) as [[e s2]| | |] eqn:E2; try discriminate E. cbn [bind] in E. injection E as E.
    destruct (K _ _ G (ext2_refl s) _ _ E1) as (G1 & X1 & N1). destruct (F _ _ G1 (ids_ok_ext _ _ _ IR X1) _ _ E2) as (G2 & X2 & N2).
    destruct (unique_static lookup obj pcon t e s2 n s') as (G3 & X3 & N3); auto. { apply ext2_len in X2. lia. }
    split; [exact G3|]. split; [|exact N3]. eauto using ext2_trans.
Qed.
Lemma all_static : forall fuel,
  (forall d rs s, good s -> ids_ok rs s -> post s (fail fuel d rs s)) /\
  (forall ctx w rhs rs s, good s -> ids_ok rs s -> (rhs < length (nodes s))%nat -> post s (succeed fuel ctx w rhs rs s)) /\
  (forall p obj d ctx w rhs rs s, good s -> ids_ok rs s -> (rhs < length (nodes s))%nat -> post s (matchpat fuel p obj d ctx w rhs rs s)).
Proof.
  induction fuel as [|fuel (IF & IS & IM)]; [repeat split; intros; discriminate|]. split; [|split].
  - intros d rs s G IR n s' E. cbn [Match_Model.fail] in E. destruct rs as [|[ps rhs] rs].
    + assert (n = failure /\ s' = s) as [-> ->] by (destruct d; split; congruence). split; [exact G|]. split; [apply ext2_refl|apply IR].
    + destruct d as [c ds|cs]; [|discriminate]. destruct IR as [IR1 IR2]. inversion IR2; subst. eapply IS; eauto. split; auto.
  - intros ctx w rhs rs s G IR R n s' E. cbn [Match_Model.succeed] in E. destruct w as [|[[ps objs] ds] w].
    + injection E as <- <-. auto using ext2_refl.
    + destruct ps as [|p ps], objs as [|o objs], ds as [|d ds]; try discriminate E; [eapply IS; eauto|eapply IM; eauto].
  - intros p obj d ctx w rhs rs s G IR R n s' E. cbn [Match_Model.matchpat] in E.
    assert (PL : forall d s', good s' -> ext2 s s' -> post s' (succeed fuel (apply ctx d) w rhs rs s')).
    { intros d' s1 G1 X1. apply IS; auto; [eapply ids_ok_ext; eauto|apply ext2_len in X1; lia]. }
    assert (PP : forall c w' s', good s' -> ext2 s s' -> post s' (succeed fuel c w' rhs rs s')).
    { intros c w' s1 G1 X1. apply IS; auto; [eapply ids_ok_ext; eauto|apply ext2_len in X1; lia]. }
    destruct (simplifyPat p) as [k|x| |ci|ci q|e|e q|l|q|ps|ps|q|q|q r]; try discriminate E.
    + eapply mktest_static in E; eauto; discriminate.
    + eapply PL; eauto using ext2_refl.
    + eapply mktest_static in E; eauto; discriminate.
    + eapply mktest_static in E; eauto; discriminate.
    + eapply mktest_static in E; eauto; discriminate.
    + destruct ps; [eapply PL; eauto using ext2_refl|eapply PP; eauto using ext2_refl].
    + eapply mktest_static in E; eauto; [discriminate|]. destruct ps; auto.
Qed.
End Static.

(** ** For one tuple of arguments *)
Section Dyn.
Variable exname : Z -> Z.
Variable env : list rval.
Variable Vs : list cval.
Variable lookup : list dec -> dec -> option nat.
Variable failure : nat.
Variable objs1 : list lam.
Notation sat := (sat exname).
Notation is_con := (is_con exname).
Notation orep := (orep exname env).
Notation kmatch := (kmatch exname).
Notation comp := (comp exname).
Notation kml := (kml exname).
Notation compl := (compl exname).
Notation leads := (leads exname env).
Notation topctx := [(Tup (length Vs), @nil termd)].
Hypothesis OB : Forall2 orep objs1 Vs.
Notation fail := (fail lookup failure objs1 topctx).
Notation succeed := (succeed lookup failure objs1 topctx).
Notation matchpat := (matchpat lookup failure objs1 topctx).

(** a hole with value [u] in the value [V]; the pending arguments after it *)
Inductive frames : context -> work -> list (list cval) -> cval -> cval -> Prop :=
| f_nil V : frames [] [] [] V V
| f_cons con args ctx pats objs dscs w vs1 u vs2 wvs c V :
    is_con con c (rev vs1 ++ u :: vs2) -> Forall2 sat args vs1 -> Forall2 sat dscs vs2 -> Forall2 orep objs vs2 -> length pats = length vs2 ->
    frames ctx w wvs c V -> frames ((con, args) :: ctx) ((pats, objs, dscs) :: w) (vs2 :: wvs) u V.
Inductive ready : context -> work -> list (list cval) -> cval -> Prop :=
| rd_done ctx V : ready ctx [] [] V
| rd_open con args ctx pats objs dscs w vs1 u vs2 wvs c V :
    is_con con c (rev vs1 ++ u :: vs2) -> Forall2 sat args vs1 -> Forall2 sat dscs (u :: vs2) -> Forall2 orep objs (u :: vs2) ->
    length pats = length (u :: vs2) ->
    frames ctx w wvs c V -> ready ((con, args) :: ctx) ((pats, objs, dscs) :: w) ((u :: vs2) :: wvs) V
| rd_empty ctx w wvs V : ready ctx w wvs V -> ready ctx (([], [], []) :: w) ([] :: wvs) V.

Lemma F2_len {A B} (R : A -> B -> Prop) l l' : Forall2 R l l' -> length l = length l'.
Proof. induction 1; cbn; auto. Qed.
Lemma F2_rev {A B} (R : A -> B -> Prop) l l' : Forall2 R l l' -> Forall2 R (rev l) (rev l').
Proof. induction 1; cbn; [constructor|]. apply Forall2_app; auto. Qed.
Lemma apply_ready ctx w wvs u V : frames ctx w wvs u V -> forall d, sat d u -> ready (apply ctx d) w wvs V.
Proof.
  induction 1 as [V|con args ctx pats objs dscs w vs1 u vs2 wvs c V IC SA SD OS LP FR IH]; intros d SD1; [apply rd_done|].
  cbn [apply]. pose proof (is_con_arity _ _ _ _ IC) as AR. rewrite app_length, rev_length in AR. cbn [length] in AR.
  pose proof (F2_len _ _ _ SA) as LA. destruct (Nat.eqb_spec (arity con) (length args + 1)) as [E|E].
  - assert (vs2 = []) as -> by (destruct vs2; [reflexivity|cbn in AR; lia]). destruct pats; [|discriminate LP].
    inversion SD; subst. inversion OS; subst. apply rd_empty, IH. apply (sat_pos _ con _ _ _ IC). cbn [rev]. apply Forall2_app; [now apply F2_rev|].
    constructor; [exact SD1|constructor].
  - destruct vs2 as [|x vs2]; [cbn in AR; lia|]. apply (rd_open con (d :: args) ctx pats objs dscs w (u :: vs1) x vs2 wvs c V); auto.
    cbn [rev]. rewrite <- app_assoc. exact IC.
Qed.
Lemma builddsc_sat ctx w wvs u V : frames ctx w wvs u V -> forall d, sat d u -> exists D, builddsc ctx d w = Ret D /\ sat D V.
Proof.
  induction 1 as [V|con args ctx pats objs dscs w vs1 u vs2 wvs c V IC SA SD OS LP FR IH]; intros d SD1; [exists d; auto|].
  cbn [builddsc]. apply IH. rewrite rev_append_rev. apply (sat_pos _ con _ _ _ IC). apply Forall2_app; [now apply F2_rev|]. now constructor.
Qed.

(** the pending patterns and their values *)
Definition flat (w : work) : list pat := concat (map (fun x => fst (fst x)) w).
Inductive chosen : rules -> nat -> Prop :=
| ch_none : chosen [] failure
| ch_hit ps id rs : kml ps Vs -> chosen ((ps, id) :: rs) id
| ch_miss ps id rs r : ~ kml ps Vs -> chosen rs r -> chosen ((ps, id) :: rs) r.
Definition goal (M : Prop) (rhs : nat) (rs : rules) (tgt : nat) : Prop := (M /\ tgt = rhs) \/ (~ M /\ chosen rs tgt).
Definition rules_ok (rs : rules) : Prop := Forall (fun r => length (fst r) = length Vs /\ compl (fst r) Vs) rs.
Lemma goal_iff M M' rhs rs t : (M <-> M') -> goal M rhs rs t -> goal M' rhs rs t.
Proof. unfold goal. tauto. Qed.

Lemma unique_leads obj c t1 t2 s n s' b r : unique lookup obj c t1 t2 s = (n, s') -> good s -> (t1 < length (nodes s))%nat -> (t2 < length (nodes s))%nat ->
  (forall k, c <> Tup k) -> test exname env obj c = Some b -> leads (nodes s) (if b then t1 else t2) r -> leads (nodes s') n r.
Proof.
  intros E G L1 L2 NT T H. destruct (unique_static _ _ _ _ _ _ _ _ G L1 L2 NT E) as (_ & X & _). revert E. unfold unique.
  destruct (Nat.eqb_spec t1 t2) as [->|NE]. { intros E. injection E as <- <-. destruct b; exact H. }
  set (node := IfEq obj c t1 t2). set (fresh := mkDecision node _).
  assert (FR : fresh = (n, s') -> leads (nodes s') n r).
  { unfold fresh, mkDecision. intros E. injection E as <- <-. eapply ld_step with (b := b); [|exact T|eapply leads_ext; [apply ext2_ext, X|exact H]].
    cbn [nodes]. change (nodes (incrnode t2 (incrnode t1 s))) with (nodes s). rewrite nth_error_app2, Nat.sub_diag by lia. reflexivity. }
  destruct (lookup (nodes s) node) as [k|]; [|exact FR]. destruct (nth_error (nodes s) k) as [node'|] eqn:K; [|exact FR].
  destruct (dec_dec node' node) as [->|]; [|exact FR]. intros E. injection E as <- <-. eapply ld_step; eauto.
Qed.

(** what a correct continuation does *)
Definition okfail (f : termd -> rules -> state -> outcome (nat * state)) (rs : rules) : Prop :=
  forall d s n s' t, f d rs s = Ret (n, s') -> good s -> ids_ok failure rs s -> sat d (CTup Vs) -> chosen rs t -> leads (nodes s') n t.
Definition static_ok (f : termd -> rules -> state -> outcome (nat * state)) (rs : rules) : Prop :=
  forall d s, good s -> ids_ok failure rs s -> post s (f d rs s).

Lemma mktest_dyn f rs pcon obj d ctx w wvs u k s n s' M rhs t :
  mktest lookup f pcon (match pcon with Vec _ => Pvectlength obj | _ => obj end) d ctx w rs k s = Ret (n, s') ->
  good s -> ids_ok failure rs s -> okfail f rs -> static_ok f rs ->
  (forall d s', good s' -> ext2 s s' -> post s' (k d s')) ->
  fam pcon u -> (forall n, pcon <> Tup n) -> sat d u -> orep obj u -> frames ctx w wvs u (CTup Vs) ->
  ((exists args, is_con pcon u args) \/ ~ M) ->
  (forall d' args s1 n1 s1', is_con pcon u args -> sat d' u -> (d' = d \/ d' = Pos pcon (bots (arity pcon))) -> (forall c ds, d = Pos c ds -> d' = d -> c = pcon) ->
     good s1 -> ext2 s s1 -> k d' s1 = Ret (n1, s1') -> leads (nodes s1') n1 t) ->
  goal M rhs rs t -> leads (nodes s') n t.
Proof.
  intros E G IR OF SF KS F NT SD OR FR MC K GO. unfold mktest in E. destruct (staticmatch pcon d) eqn:SM.
  - destruct (static_yes _ _ _ _ F SD SM) as [args IC]. eapply K; eauto using ext2_refl.
    intros c ds -> _. cbn [staticmatch] in SM. destruct (con_dec pcon c) as [->|]; [reflexivity|]. destruct pcon; discriminate.
  - destruct (builddsc_sat _ _ _ _ _ FR d SD) as (D & ED & SD'). rewrite ED in E. cbn [bind] in E.
    eapply OF; eauto. destruct GO as [[HM _]|[_ C]]; [|exact C]. exfalso. destruct MC as [[args IC]|NM]; [|contradiction].
    apply (static_no _ _ _ _ F SD SM _ IC).
  - destruct (k (Pos pcon (bots (arity pcon))) s) as [[t1 s1]| | |] eqn:E1; try discriminate E. cbn [bind] in E.
    destruct (builddsc ctx (addneg d pcon) w) as [d1| | |] eqn:EB; try discriminate E. cbn [bind] in E.
    destruct (f d1 rs s1) as [[t2 s2]| | |] eqn:E2; try discriminate E. cbn [bind] in E. injection E as E.
    destruct (KS _ _ G (ext2_refl s) _ _ E1) as (G1 & X1 & N1). destruct (SF _ _ G1 (ids_ok_ext _ _ _ _ IR X1) _ _ E2) as (G2 & X2 & N2).
    destruct (test_ok exname env pcon obj d u F SD SM NT OR) as (b & T & B1 & B0).
    eapply unique_leads; eauto. { apply ext2_len in X2. lia. }
    destruct b.
    + destruct (B1 eq_refl) as [args IC]. eapply leads_ext; [apply ext2_ext, X2|]. eapply (K (Pos pcon (bots (arity pcon))) args s t1 s1); eauto using ext2_refl.
      * apply (sat_pos _ _ _ _ _ IC). rewrite (is_con_arity _ _ _ _ IC). apply sat_bots.
      * intros c ds -> EQ. injection EQ as <- _. reflexivity.
    + specialize (B0 eq_refl). pose proof (static_neg _ _ _ _ F SD SM B0) as SN.
      destruct (builddsc_sat _ _ _ _ _ FR _ SN) as (D & ED & SD'). assert (d1 = D) as -> by congruence.
      eapply OF; eauto; [eapply ids_ok_ext; eauto|]. destruct GO as [[HM _]|[_ C]]; [|exact C]. exfalso. destruct MC as [[args IC]|NM]; [|contradiction].
      apply (B0 _ IC).
Qed.
Lemma getsargs_sat c u args d : (forall l, c <> EExn l) -> is_con c u args -> sat d u -> Forall2 sat (getsargs (length args) d) args.
Proof.
  intros NE IC S. destruct S as [c' ds v args' IC' F|cs v N C]; cbn [getsargs]; [|apply sat_bots].
  assert (c = c') as -> by (eapply is_con_con; eauto). now rewrite (is_con_fun _ _ _ _ _ IC IC').
Qed.
Lemma goal_not M rhs rs t : ~ M -> goal M rhs rs t -> chosen rs t.
Proof. intros N [[H _]|[_ H]]; [contradiction|exact H]. Qed.
Lemma compl_cons p ps v vs : compl (p :: ps) (v :: vs) <-> comp p v /\ (kmatch p v -> compl ps vs).
Proof. reflexivity. Qed.
Lemma kml_cons p ps v vs : kml (p :: ps) (v :: vs) <-> kmatch p v /\ kml ps vs.
Proof. reflexivity. Qed.

Lemma nest_ready c u pats objs ds ctx w args wvs V : is_con c u args -> frames ctx w wvs u V -> length pats = length args -> Forall2 orep objs args ->
  Forall2 sat ds args -> (args = [] -> ready ((c, []) :: ctx) w wvs V) -> ready ((c, []) :: ctx) ((pats, objs, ds) :: w) (args :: wvs) V.
Proof.
  intros IC FR LP OS SA NE. destruct args as [|a args].
  - destruct pats; [|discriminate LP]. inversion OS; subst. inversion SA; subst. apply rd_empty. auto.
  - eapply rd_open with (vs1 := []); eauto.
Qed.
Lemma is_con_or c u : fam c u -> (exists args, is_con c u args) \/ (forall args, ~ is_con c u args).
Proof.
  destruct c as [k|n|n|t sp ar|l], u as [k'|vs|vs|sg m oa|x]; cbn [fam Match_Proofs.is_con]; try tauto; try (destruct l; tauto).
  - intros _. destruct (scon_dec k k') as [->|]; [left; eauto|right; intros a [? _]; auto].
  - intros ->. left. eauto.
  - intros _. destruct (Nat.eq_dec n (length vs)); [left; eauto|right; intros a [? _]; auto].
  - intros _. destruct (Z.eq_dec t (Z.of_nat m)); [|right; intros a [? _]; auto]. destruct (Z.eq_dec sp (Z.of_nat (length sg))); [|right; intros a (_ & ? & _); auto].
    destruct (Nat.eq_dec ar (length (olist oa))); [left; exists (olist oa); auto|right; intros a (_ & _ & -> & ?); auto].
  - destruct l as [i|i l|l|e]; try tauto. intros _. destruct (Z.eq_dec (exname e) x); [left; eauto|right; intros a [? _]; auto].
Qed.
Definition okS (fuel : nat) : Prop := forall ctx w wvs rhs rs s n s' t,
  succeed fuel ctx w rhs rs s = Ret (n, s') -> good s -> ids_ok failure rs s -> (rhs < length (nodes s))%nat -> rules_ok rs ->
  ready ctx w wvs (CTup Vs) -> compl (flat w) (concat wvs) -> goal (kml (flat w) (concat wvs)) rhs rs t -> leads (nodes s') n t.
Definition okM (fuel : nat) : Prop := forall p obj d ctx w wvs u rhs rs s n s' t,
  matchpat fuel p obj d ctx w rhs rs s = Ret (n, s') -> good s -> ids_ok failure rs s -> (rhs < length (nodes s))%nat -> rules_ok rs ->
  frames ctx w wvs u (CTup Vs) -> sat d u -> orep obj u ->
  compl (p :: flat w) (u :: concat wvs) -> goal (kml (p :: flat w) (u :: concat wvs)) rhs rs t -> leads (nodes s') n t.
Lemma all_dyn : forall fuel, (forall rs, rules_ok rs -> okfail (fail fuel) rs) /\ okS fuel /\ okM fuel.
Proof.
  induction fuel as [|fuel (IF & IS & IM)]; [repeat split; repeat intro; discriminate|].
  destruct (all_static lookup failure objs1 topctx fuel) as (SF & SS & SM0). split; [|split].
  - intros rs RO d s n s' t E G IR SD CH. cbn [Match_Model.fail] in E. destruct rs as [|[ps rhs] rs].
    + assert (n = failure /\ s' = s) as [-> ->] by (destruct d; split; congruence). inversion CH; subst. constructor.
    + destruct d as [c ds|cs]; [|discriminate]. destruct IR as [IR1 IR2]. inversion IR2 as [|? ? R1 R2]; subst. inversion RO as [|? ? RO1 RO2]; subst. cbn [fst snd] in *.
      inversion SD as [c' ds' v args IC FS|]; subst. destruct c; cbn [Match_Proofs.is_con] in IC; try contradiction; try (destruct l; contradiction).
      destruct IC as [-> ->].
      destruct RO1 as [LP CP]. assert (GO : goal (kml ps Vs) rhs rs t) by (inversion CH; subst; [left|right]; auto).
      eapply (IS topctx [(ps, objs1, ds)] [Vs]); eauto; [split; auto| | |].
      * apply (nest_ready (Tup (length Vs)) (CTup Vs)); auto; [split; reflexivity|constructor|]. intros _. constructor.
      * unfold flat. cbn [map concat fst]. now rewrite !app_nil_r.
      * unfold flat. cbn [map concat fst]. now rewrite !app_nil_r.
  - intros ctx w wvs rhs rs s n s' t E G IR R RO RD CW GO. cbn [Match_Model.succeed] in E.
    inversion RD as [ctx' V'|con args ctx' pats objs dscs w' vs1 u vs2 wvs' c V' IC SA SD OS LP FR|ctx' w' wvs' V' RD']; subst.
    + injection E as <- <-. destruct GO as [[_ ->]|[N _]]; [constructor|]. exfalso. apply N. exact I.
    + destruct pats as [|p pats]; [discriminate LP|]. inversion SD as [|d ? dscs' ? SD1 SD2]; subst. inversion OS as [|o ? objs' ? OS1 OS2]; subst.
      eapply (IM p o d ((con, args) :: ctx') ((pats, objs', dscs') :: w') (vs2 :: wvs') u); eauto.
      econstructor; eauto.
    + eapply IS; eauto.
  - intros p obj d ctx w wvs u rhs rs s n s' t E G IR R RO FR SD OR CW GO. cbn [Match_Model.matchpat] in E.
    assert (CW' : compl (simplifyPat p :: flat w) (u :: concat wvs)).
    { rewrite compl_cons in *. rewrite simplify_match. split; [apply simplify_comp, CW|apply CW]. }
    assert (GO' : goal (kml (simplifyPat p :: flat w) (u :: concat wvs)) rhs rs t).
    { eapply goal_iff; [|exact GO]. rewrite !kml_cons, simplify_match. tauto. }
    clear CW GO. revert E CW' GO'. generalize (simplifyPat p). clear p. intros p E CW GO. rewrite compl_cons in CW. destruct CW as [CP CW].
    assert (OKF : okfail (fail fuel) rs) by (apply IF, RO).
    assert (STF : static_ok (fail fuel) rs) by (intros d' s1 G1 I1; apply SF; auto).
    assert (PP : forall c w' s', good s' -> ext2 s s' -> post s' (succeed fuel c w' rhs rs s')).
    { intros c w' s1 G1 X1. apply SS; auto; [eapply ids_ok_ext; eauto|apply ext2_len in X1; lia]. }
    assert (PLAIN : forall d' s1 n1 s1', sat d' u -> kmatch p u -> good s1 -> ext2 s s1 -> succeed fuel (apply ctx d') w rhs rs s1 = Ret (n1, s1') -> leads (nodes s1') n1 t).
    { intros d' s1 n1 s1' S1 KM G1 X1 E1. eapply IS; eauto.
      - eapply ids_ok_ext; eauto.
      - apply ext2_len in X1. lia.
      - eapply apply_ready; eauto.
      - eapply goal_iff; [|exact GO]. rewrite kml_cons. tauto. }
    assert (NEST : forall c pats objs args s1 n1 s1', is_con c u args -> args <> [] -> (forall l, c <> EExn l) -> length pats = length args -> Forall2 orep objs args ->
      compl pats args -> (kmatch p u <-> kml pats args) -> good s1 -> ext2 s s1 ->
      succeed fuel ((c, []) :: ctx) ((pats, objs, getsargs (length args) d) :: w) rhs rs s1 = Ret (n1, s1') -> leads (nodes s1') n1 t).
    { intros c pats objs args s1 n1 s1' IC NA NE LP OS CP1 KM G1 X1 E1. eapply (IS _ _ (args :: wvs)); eauto.
      - eapply ids_ok_ext; eauto.
      - apply ext2_len in X1. lia.
      - eapply nest_ready; eauto using getsargs_sat. intros ->. contradiction.
      - unfold flat. cbn [map concat fst]. apply compl_app; [exact LP|]. split; [exact CP1|]. intros K1. apply CW, KM, K1.
      - eapply goal_iff; [|exact GO]. rewrite kml_cons, KM. unfold flat. cbn [map concat fst]. symmetry. apply kml_app, LP. }
    destruct p as [k|x| |ci|ci q|e|e q|l|q|ps|ps|q|q|q r]; try discriminate E.
    + (* SCONpat *) cbn [Match_Proofs.comp] in CP. refine (mktest_dyn (fail fuel) rs (SCon k) obj d ctx w wvs u _ s n s' _ rhs t E G IR OKF STF _ CP _ SD OR FR _ _ GO); [intros d1 s1 G1 X1; apply PP; auto|discriminate| |].
      * rewrite kml_cons. cbn [Match_Proofs.kmatch]. destruct (is_con_or (SCon k) u CP) as [[args IC]|NC]; [left; eauto|right].
        intros [KM _]. apply (NC _ KM).
      * intros d' args s1 n1 s1' IC S1 _ _ G1 X1 E1. eapply PLAIN; eauto. cbn [Match_Proofs.kmatch]. replace (@nil cval) with args; [exact IC|].
        apply is_con_arity in IC. destruct args; [reflexivity|discriminate].
    + (* WILDCARDpat *) eapply PLAIN; eauto using ext2_refl; try exact I.
    + (* NILpat *) cbn [Match_Proofs.comp] in CP. refine (mktest_dyn (fail fuel) rs (CCon (conTag ci) (conSpan ci) 0) obj d ctx w wvs u _ s n s' _ rhs t E G IR OKF STF _ CP _ SD OR FR _ _ GO); [intros d1 s1 G1 X1; apply PP; auto|discriminate| |].
      * rewrite kml_cons. cbn [Match_Proofs.kmatch]. destruct (is_con_or (CCon (conTag ci) (conSpan ci) 0) u CP) as [[args IC]|NC]; [left; eauto|right].
        intros [KM _]. apply (NC _ KM).
      * intros d' args s1 n1 s1' IC S1 _ _ G1 X1 E1. eapply PLAIN; eauto. cbn [Match_Proofs.kmatch]. replace (@nil cval) with args; [exact IC|].
        apply is_con_arity in IC. destruct args; [reflexivity|discriminate].
    + (* CONSpat *) cbn [Match_Proofs.comp] in CP. destruct CP as [FA CP].
      refine (mktest_dyn (fail fuel) rs (CCon (conTag ci) (conSpan ci) 1) obj d ctx w wvs u _ s n s' _ rhs t E G IR OKF STF _ FA _ SD OR FR _ _ GO); [intros d1 s1 G1 X1; apply PP; auto|discriminate| |].
      * rewrite kml_cons. cbn [Match_Proofs.kmatch]. destruct (is_con_or (CCon (conTag ci) (conSpan ci) 1) u FA) as [[args IC]|NC]; [left; eauto|right].
        intros [KM _]. destruct u as [| | |sg m [a|]|]; try contradiction. apply (NC _ (proj1 KM)).
      * intros d' args s1 n1 s1' IC S1 _ _ G1 X1 E1. destruct u as [| | |sg m oa|]; try contradiction IC.
        pose proof IC as (ET & ES & EA & EL). destruct oa as [a|]; [|subst args; discriminate EL]. cbn [olist] in EA. subst args.
        destruct (CP ET) as [EG CQ].
        eapply (NEST (CCon (conTag ci) (conSpan ci) 1) [q] _ [a]); eauto; try discriminate.
        { constructor; [|constructor]. destruct OR as (r & A & RP). destruct FA as (FA1 & b & EN). rewrite ES.
          assert (EN' : snd (nth m sg (false, false)) = b) by (apply nth_error_nth with (d := (false, false)) in EN; now rewrite EN).
          destruct (Z.eqb_spec (Z.of_nat (length sg)) 1) as [E1'|E1'].
          - rewrite orb_true_r. inversion RP; subst; try lia. exists r. auto.
          - rewrite orb_false_r. rewrite EN' in EG. replace (length sg =? 1)%nat with false in EG by (symmetry; apply Nat.eqb_neq; lia). rewrite andb_true_r in EG.
            rewrite EG. inversion RP; subst; try lia.
            + assert (conIsGreedy ci = true) as -> by congruence. eexists. split; [exact A|]. auto.
            + assert (conIsGreedy ci = false) as -> by congruence. eexists. split; [|eassumption]. cbn [access]. rewrite A. reflexivity. }
        { split; [exact CQ|intros _; exact I]. }
        { cbn [Match_Proofs.kmatch]. unfold kml. cbn [all2]. tauto. }
    + (* EXNAMEpat *) cbn [Match_Proofs.comp] in CP. refine (mktest_dyn (fail fuel) rs (EExn l) obj d ctx w wvs u _ s n s' _ rhs t E G IR OKF STF _ CP _ SD OR FR _ _ GO); [intros d1 s1 G1 X1; apply PP; auto|discriminate| |].
      * rewrite kml_cons. cbn [Match_Proofs.kmatch]. destruct (is_con_or (EExn l) u CP) as [[args IC]|NC]; [left; eauto|right].
        intros [KM _]. apply (NC _ KM).
      * intros d' args s1 n1 s1' IC S1 _ _ G1 X1 E1. eapply PLAIN; eauto. cbn [Match_Proofs.kmatch]. replace (@nil cval) with args; [exact IC|].
        apply is_con_arity in IC. destruct args; [reflexivity|discriminate].
    + (* RECpat *) cbn [Match_Proofs.comp] in CP. destruct u as [|vs| | |]; try contradiction. destruct CP as [LP CP]. destruct OR as (r & A & RP).
      destruct ps as [|q ps].
      * destruct vs; [|discriminate LP]. eapply PLAIN; eauto using ext2_refl; try exact I.
      * rewrite LP in E. inversion RP; subst. eapply (NEST (Tup (length vs)) (q :: ps) _ vs); eauto using ext2_refl; try discriminate; try (split; reflexivity).
        { intros ->. discriminate LP. }
        { eapply split_orep; eauto. }
        { reflexivity. }
    + (* VECpat *) cbn [Match_Proofs.comp] in CP. destruct u as [| |vs| |]; try contradiction.
      refine (mktest_dyn (fail fuel) rs (Vec (length ps)) obj d ctx w wvs (CVec vs) _ s n s' _ rhs t E G IR OKF STF _ I _ SD OR FR _ _ GO); [intros d1 s1 G1 X1; destruct ps; apply PP; auto|discriminate| |].
      * rewrite kml_cons. cbn [Match_Proofs.kmatch]. destruct (Nat.eq_dec (length ps) (length vs)) as [EL|NL]; [left; exists vs; split; auto|right].
        intros [KM _]. apply NL. eapply kml_length. exact KM.
      * intros d' args s1 n1 s1' IC S1 _ _ G1 X1 E1. pose proof IC as [EL ->]. specialize (CP EL). destruct ps as [|q ps].
        { destruct vs; [|discriminate EL]. eapply PLAIN; eauto; try exact I. }
        rewrite EL in E1. destruct OR as (r & A & RP). inversion RP; subst. eapply (NEST (Vec (length vs)) (q :: ps) _ vs); eauto; try discriminate; try (split; reflexivity).
        { intros ->. discriminate EL. }
        { eapply split_orep; eauto. }
        { reflexivity. }
Qed.
End Dyn.
