(** Proofs for C39: the match compiler as a whole. *)
From Verif Require Import Base Match_Model Match_Spec Match_Proofs Match_Dag Match_Code Match_Core.

Lemma args_orep exname : forall Vs rs, Forall2 rep Vs rs -> Forall2 (orep exname (rev rs)) (arg_objs (length Vs)) Vs.
Proof.
  intros Vs rs F. unfold arg_objs. rewrite <- (rev_involutive Vs) at 2. apply F2_rev.
  assert (G : forall l r k, Forall2 rep l (skipn k r) -> Forall2 (orep exname r) (map (fun i => Lvar (Z.of_nat i)) (seq k (length l))) l).
  { induction l as [|v l IH]; intros r k H; cbn [length seq map]; constructor.
    - inversion H as [|? y ? ys R _ E1 E2]; subst. exists y. split; [|exact R]. cbn [access]. replace (Z.of_nat k <? 0) with false by lia. rewrite Nat2Z.id.
      rewrite <- (firstn_skipn k r), <- E2. assert (k <= length r)%nat.
      { destruct (Nat.le_gt_cases k (length r)); [assumption|]. rewrite skipn_all2 in E2 by lia. discriminate. }
      rewrite nth_error_app2; rewrite firstn_length_le by lia; [|lia]. now rewrite Nat.sub_diag.
    - apply IH. inversion H as [|? y ? ys R F' E1 E2]; subst. replace (skipn (S k) r) with ys; [exact F'|].
      clear - E2. revert r E2. induction k as [|k IHk]; intros [|x r] E2; cbn in *; try congruence. now apply IHk. }
  specialize (G (rev Vs) (rev rs) 0%nat). rewrite rev_length in G. apply G. cbn [skipn]. now apply F2_rev.
Qed.

Section Top.
Variable E : types.
Hypothesis TOK : types_ok E.
Variable exname : Z -> Z.
Notation kml := (kml exname).

Lemma chosen_ex Vs rs : exists t, chosen exname Vs 0 rs t.
Proof.
  induction rs as [|[ps id] rs [t IH]]; [exists 0%nat; constructor|]. destruct (kml_dec exname ps Vs); [exists id; now constructor|exists t; now constructor].
Qed.
Lemma chosen_rows Vs rows : forall k t, chosen exname Vs 0 (combine rows (seq (S k) (length rows))) t ->
  (t = 0%nat /\ forall row, In row rows -> ~ kml row Vs) \/
  (exists i row, t = S (k + i) /\ nth_error rows i = Some row /\ kml row Vs /\ forall j row, (j < i)%nat -> nth_error rows j = Some row -> ~ kml row Vs).
Proof.
  induction rows as [|row rows IH]; intros k t C; cbn [length seq combine] in C; inversion C as [|? ? ? KM|? ? ? ? NK C']; subst.
  - left. split; [reflexivity|]. intros row [].
  - right. exists 0%nat, row. split; [f_equal; lia|]. split; [reflexivity|]. split; [exact KM|]. intros j row' J. lia.
  - destruct (IH (S k) t C') as [[-> N]|(i & row' & -> & N & KM & M)].
    + left. split; [reflexivity|]. intros row' [<-|I]; auto.
    + right. exists (S i), row'. split; [f_equal; lia|]. split; [exact N|]. split; [exact KM|]. intros [|j] row'' J X; [now injection X as <-|]. eapply M; eauto. lia.
Qed.
Lemma init_good n : good (init_state n).
Proof.
  constructor; unfold init_state; cbn [nodes refs].
  - cbn. now rewrite repeat_length, map_length, seq_length.
  - intros [|k] o c t e H; [discriminate|]. cbn [nth_error] in H. rewrite nth_error_map in H. destruct (nth_error (seq 0 n) k); discriminate.
Qed.
Lemma leads_used env s n m : good s -> leads exname env (nodes s) n m -> (n < length (nodes s))%nat -> (0 < count (incrnode n s) m)%nat.
Proof.
  intros G L. assert (X : forall n, leads exname env (nodes s) n m -> n = m \/ (0 < count s m)%nat).
  { clear n L. intros n L. induction L as [n|n o c t e b m N T L IH]; [auto|]. right. destruct (g_node _ G _ _ _ _ _ N) as (_ & _ & C1 & C2).
    destruct IH as [<-|]; [destruct b; assumption|assumption]. }
  intros NL. destruct (incrnode_ext2 n s) as [_ M]. specialize (M m). destruct (X _ L) as [<-|]; [|lia]. apply incr_pos; [apply G|exact NL].
Qed.

Lemma translate_ok lookup fuel rows res ts vs rs : translateMatch lookup fuel rows = Ret res ->
  Forall (Forall2 (pat_type E exname) ts) rows -> Forall2 (has_type E) ts vs -> rep_list E ts vs rs ->
  (no_match exname rows vs /\ run exname (rev rs) (rcode res) = Failed /\ has_failure res = true) \/
  (exists i, first_match exname rows vs i /\ run exname (rev rs) (rcode res) = Rule i /\ ~ In i (unused_rules res)).
Proof.
  intros TR PT HT RL. unfold translateMatch in TR.
  destruct (makedag lookup fuel 0 (combine rows (seq 1 (length rows))) (init_state (length rows))) as [[n s]| | |] eqn:MD; try discriminate TR.
  cbn [bind] in TR.
  destruct (toseq (incrnode n s) (if used (incrnode n s) 0 then Cfailure else Cunspec) (S (length (nodes (incrnode n s)))) n) as [c| | |] eqn:TS; try discriminate TR.
  cbn [bind] in TR. injection TR as <-. cbn [rcode has_failure unused_rules].
  destruct (core_list E exname vs) with (ts := ts) (rs := rs) as (Vs & RV & LV & KV); auto. { apply Forall_forall. intros v _. now apply core_all. }
  assert (KR : forall row, In row rows -> length row = length Vs /\ compl exname row Vs /\ (kml row Vs <-> row_matches exname row vs)).
  { intros row I. apply KV. rewrite Forall_forall in PT. auto. }
  destruct (chosen_ex Vs (combine rows (seq 1 (length rows)))) as [t CH].
  unfold makedag in MD. destruct rows as [|pats1 rows0] eqn:ER; [discriminate MD|]. cbn [length seq combine] in MD. rewrite <- ER in *.
  change ((pats1, 1%nat) :: combine rows0 (seq 2 (length rows0))) with (combine (pats1 :: rows0) (seq 1 (length (pats1 :: rows0)))) in MD. rewrite <- ER in MD.
  assert (L1 : length pats1 = length Vs) by (apply KR; rewrite ER; left; reflexivity). rewrite L1 in MD.
  replace (S (length rows0)) with (length rows) in MD by (rewrite ER; reflexivity).
  assert (LN : length (nodes (init_state (length rows))) = S (length rows)) by (unfold init_state; cbn; now rewrite map_length, seq_length).
  assert (IDS : ids_ok 0 (combine rows (seq 1 (length rows))) (init_state (length rows))).
  { split; [rewrite LN; lia|]. apply Forall_forall. intros [row i] I. apply in_combine_r in I. apply in_seq in I. cbn [snd]. rewrite LN. lia. }
  destruct (all_static lookup 0 (arg_objs (length Vs)) [(Tup (length Vs), [])] fuel) as (SF & _).
  destruct (SF _ _ _ (init_good _) IDS _ _ MD) as (G & X & NL).
  destruct (all_dyn exname (rev rs) Vs lookup 0 (arg_objs (length Vs)) (args_orep _ _ _ RV) fuel) as (DF & _).
  assert (LD : leads exname (rev rs) (nodes s) n t).
  { eapply DF; [|exact MD|apply init_good|exact IDS| |exact CH].
    - apply Forall_forall. intros [row i] I. apply in_combine_l in I. cbn [fst]. destruct (KR _ I) as (A & B & _). auto.
    - apply (sat_pos _ _ _ _ Vs); [split; reflexivity|]. apply sat_bots. }
  pose proof (leads_used _ _ _ _ G LD NL) as US. destruct X as [(l & NS & IL) _].
  assert (LEAF : forall m, (m < S (length rows))%nat -> nth_error (nodes (incrnode n s)) m = nth_error (Failure :: map Success (seq 0 (length rows))) m).
  { intros m Hm. change (nodes (incrnode n s)) with (nodes s). rewrite NS. unfold init_state. cbn [nodes]. rewrite nth_error_app1; [reflexivity|].
    cbn. rewrite map_length, seq_length. lia. }
  assert (LS : forall i, (i < length rows)%nat -> nth_error (nodes (incrnode n s)) (S i) = Some (Success i)).
  { intros i Hi. rewrite LEAF by lia. cbn [nth_error]. rewrite nth_error_map.
    assert (nth_error (seq 0 (length rows)) i = Some i) as ->; [|reflexivity]. rewrite nth_error_nth' with (d := 0%nat) by (now rewrite seq_length). now rewrite seq_nth. }
  assert (FLO : (if used (incrnode n s) 0 then Cfailure else Cunspec) = Cfailure \/ (if used (incrnode n s) 0 then Cfailure else Cunspec) = Cunspec) by (destruct (used (incrnode n s) 0); auto).
  destruct (chosen_rows Vs rows 0 t CH) as [[-> NM]|(i & row & -> & N & KM & M)].
  - left. assert (U : used (incrnode n s) 0 = true) by (unfold used; apply Nat.ltb_lt; exact US).
    split; [intros row I; rewrite <- (proj2 (proj2 (KR row I))); auto|]. split; [|exact U].
    rewrite (toseq_ok exname (rev rs) (incrnode n s) _ FLO 0%nat) with (fuel := S (length (nodes (incrnode n s)))) (n := n) (c := c); auto.
    + unfold leafres. rewrite LEAF by lia. cbn [nth_error]. rewrite U. reflexivity.
    + intros o k t e. rewrite LEAF by lia. discriminate.
  - right. exists i. assert (IL' : (i < length rows)%nat) by (apply nth_error_Some; congruence). cbn [Nat.add] in *.
    split; [|split].
    + split; [exists row; split; [exact N|]; apply KR; [eapply nth_error_In; eauto|exact KM]|].
      intros j row' J NJ RM. apply (M j row' J NJ). apply KR; [eapply nth_error_In; eauto|exact RM].
    + rewrite (toseq_ok exname (rev rs) (incrnode n s) _ FLO (S i)) with (fuel := S (length (nodes (incrnode n s)))) (n := n) (c := c); auto.
      * unfold leafres. rewrite LS by exact IL'. reflexivity.
      * intros o k t e. rewrite LS by exact IL'. discriminate.
    + intros I. apply filter_In in I. destruct I as [_ I]. unfold used in I. apply negb_true_iff, Nat.ltb_ge in I. lia.
Qed.
End Top.
