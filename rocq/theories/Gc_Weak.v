(** When the heap is never extended below its first chunk, reachable objects are black during the weak phase. *)
From Coq Require Import Sorting.Sorted.
From Verif Require Import Base ArrayLib Gc_Model Gc_Spec Gc_Heap Gc_Dark Gc_Inv Gc_Store Gc_Minor Gc_Minor2 Gc_Major Gc_Sweep Gc_Run.

(** same first chunk, phase and sweep pointer *)
Definition same3 (s s' : st) : Prop :=
  hd_error (chunks s') = hd_error (chunks s) /\ phase (gc s') = phase (gc s) /\ sweep_hp (gc s') = sweep_hp (gc s).
Lemma same3_refl s : same3 s s. Proof. repeat split. Qed.
Lemma same3_trans a b c : same3 a b -> same3 b c -> same3 a c.
Proof. intros (A1 & A2 & A3) (B1 & B2 & B3). repeat split; congruence. Qed.
Lemma same3_ne s s' : same3 s s' -> chunks s <> [] -> chunks s' <> [].
Proof. intros (A & _) N. destruct (chunks s), (chunks s'); cbn in A; congruence. Qed.

Ltac out H := match type of H with bind ?m _ = Ret _ => let o := fresh "o" in let E := fresh "E" in destruct m as [o| | |] eqn:E; try discriminate H; cbn [bind] in H end.
Lemma wr3 p v s s' : wr p v s = Ret s' -> same3 s s'.
Proof.
  unfold wr. destruct p.
  - destruct (zset _ _ _); [|discriminate]. intros E. injection E as <-. repeat split.
  - destruct (hget _ _); [|discriminate]. destruct (zset _ _ _); [|discriminate]. intros E. injection E as <-. repeat split.
Qed.
Lemma fwd3 v r s s' : put_forward v r s = Ret s' -> same3 s s'.
Proof. unfold put_forward. destruct (hget _ _); [|discriminate]. destruct (zset _ _ _); [|discriminate]. intros E. injection E as <-. repeat split. Qed.
Lemma push_ref3 a i s s' : push_ref a i s = Ret s' -> same3 s s'.
Proof. unfold push_ref. destruct (_ <? _); [|discriminate]. intros E. injection E as <-. repeat split. Qed.
Lemma darken3 grow_ok v s s' : darken grow_ok v s = Ret s' -> same3 s s'.
Proof.
  unfold darken. destruct (_ && _); [|intros E; injection E as <-; repeat split]. destruct (hget _ _) as [b|]; [|discriminate].
  destruct (color_eqb _ _); [|intros E; injection E as <-; repeat split]. unfold push_gray. destruct (_ <? _); [|discriminate]. cbn [bind]. intros E. injection E as <-.
  destruct (_ >=? _); [|repeat split]. unfold realloc_gray_vals. destruct (_ <? _); [destruct (grow_ok _)|]; repeat split.
Qed.

Section Weak.
Variables young_start young_end : Z.
Variable alloc_at : st -> Z -> option (Z * list (Z * Z) * list Z).
Variable grow_ok : st -> bool.
Variable free_size : st -> Z -> Z.
Variable outside : Z -> Prop.
Notation is_young := (is_young young_start young_end).
Notation layout := (layout young_start young_end outside).
Notation inv := (inv young_start young_end outside).
Notation step := (step young_start young_end alloc_at grow_ok free_size outside).
Notation run := (run young_start young_end alloc_at grow_ok free_size outside).
Notation possible := (possible young_start young_end alloc_at grow_ok free_size outside).
Hypothesis AL : allocator young_start young_end alloc_at outside.
Hypothesis FB : free_blocks young_start young_end free_size outside.
Hypothesis ZO : zone young_start young_end outside.
Hypothesis UP : forall s w r cs junk, alloc_at s w = Some (r, cs, junk) -> chunks s <> [] -> hd_error cs = hd_error (chunks s).

Lemma alloc3 w t s r s' : alloc_shr alloc_at w t s = Ret (r, s') -> chunks s <> [] -> same3 s s'.
Proof.
  unfold alloc_shr. destruct (alloc_at s w) as [[[x cs] junk]|] eqn:A; [|discriminate]. intros E N. injection E as <- <-. split; [|repeat split]. cbn. eapply UP; eauto.
Qed.
Lemma init3 l : forall a i s s', init_fields young_start young_end a i l s = Ret s' -> same3 s s'.
Proof.
  induction l as [|v l IH]; intros a i s s' E; cbn [init_fields] in E.
  - injection E as <-. apply same3_refl.
  - out E. apply IH in E. eapply same3_trans; [|exact E]. unfold initialize in E0. out E0. apply wr3 in E1.
    destruct (_ && _); [apply push_ref3 in E0|injection E0 as <-]; [eapply same3_trans; eauto|exact E1].
Qed.
Lemma oldify3 fuel : forall p v s s', oldify young_start young_end alloc_at fuel p v s = Ret s' -> chunks s <> [] -> same3 s s'.
Proof.
  induction fuel as [|k IH]; intros p v s s' E N; [discriminate|]. cbn [oldify] in E. destruct (_ && _); [|now apply wr3 in E].
  destruct (hget (hp s) v) as [b|]; [|discriminate]. destruct (color_eqb _ _).
  { out E. now apply wr3 in E. }
  destruct (_ <=? _).
  { out E. destruct o as [r s1]. pose proof (alloc3 _ _ _ _ _ E0 N) as K1. out E. apply fwd3 in E1. apply wr3 in E.
    eapply same3_trans; [exact K1|]. eapply same3_trans; [|exact E]. destruct (hget (hp s1) r); [|exact E1]. eapply same3_trans; [|exact E1]. repeat split. }
  assert (forall n i s s', fields_loop (oldify young_start young_end alloc_at k) v i n 1 s = Ret s' -> chunks s <> [] -> same3 s s') as FL.
  { assert (forall n j i s s', fields_loop (oldify young_start young_end alloc_at k) v i n j s = Ret s' -> chunks s <> [] -> same3 s s') as FL; [|intros; eapply FL; eauto].
    clear - IH. induction n as [|n IHn]; intros j i s s' E N; cbn [fields_loop] in E; [injection E as <-; apply same3_refl|].
    out E. out E. pose proof (IH _ _ _ _ E1 N) as K. eapply same3_trans; [exact K|]. eapply IHn; eauto. eapply same3_ne; eauto. }
  out E. out E. destruct o0 as [r s1]. pose proof (alloc3 _ _ _ _ _ E1 N) as K1. pose proof (same3_ne _ _ K1 N) as N1. out E. apply wr3 in E2. pose proof (same3_ne _ _ E2 N1) as N2.
  out E. apply fwd3 in E3. pose proof (same3_ne _ _ E3 N2) as N3. pose proof (same3_trans _ _ _ K1 (same3_trans _ _ _ E2 E3)) as K3.
  destruct (_ =? _).
  - pose proof (IH _ _ _ _ E N3). eapply same3_trans; eauto.
  - out E. pose proof (IH _ _ _ _ E4 N3) as K4. pose proof (same3_ne _ _ K4 N3) as N4. out E. pose proof (FL _ _ _ _ E5 N4) as K5. pose proof (same3_ne _ _ K5 N4) as N5.
    out E. pose proof (IH _ _ _ _ E N5) as K6. exact (same3_trans _ _ _ K3 (same3_trans _ _ _ K4 (same3_trans _ _ _ K5 K6))).
Qed.
Lemma minor3 fuel s s' : minor_collection young_start young_end alloc_at fuel s = Ret s' -> chunks s <> [] -> same3 s s'.
Proof.
  unfold minor_collection. intros E N.
  assert (forall n i s s', oldify_roots young_start young_end alloc_at fuel n i s = Ret s' -> chunks s <> [] -> same3 s s') as R.
  { clear s s' E N. induction n as [|n IHn]; intros i s s' E N; cbn [oldify_roots] in E; [injection E as <-; apply same3_refl|].
    out E. out E. pose proof (oldify3 _ _ _ _ _ E1 N) as K. eapply same3_trans; [exact K|]. eapply IHn; eauto. eapply same3_ne; eauto. }
  assert (forall l s s', oldify_refs young_start young_end alloc_at fuel l s = Ret s' -> chunks s <> [] -> same3 s s') as F.
  { clear s s' E N R. induction l as [|[a i] l IHl]; intros s s' E N; cbn [oldify_refs] in E; [injection E as <-; apply same3_refl|].
    out E. out E. pose proof (oldify3 _ _ _ _ _ E1 N) as K. eapply same3_trans; [exact K|]. eapply IHl; eauto. eapply same3_ne; eauto. }
  out E. pose proof (R _ _ _ _ E0 N) as K1. pose proof (same3_ne _ _ K1 N) as N1. out E. pose proof (F _ _ _ E1 N1) as K2. injection E as <-.
  eapply same3_trans; [exact K1|]. destruct K2 as (Q1 & Q2 & Q3). repeat split; auto.
Qed.

(** during the weak phase the sweep pointer is at the start of the heap *)
Definition at_start (s : st) : Prop := phase (gc s) = Phase_weak -> exists n, hd_error (chunks s) = Some (sweep_hp (gc s), n).
Lemma same3_start s s' : same3 s s' -> at_start s -> at_start s'.
Proof. intros (A & B & C) H P. rewrite A, C. apply H. congruence. Qed.
Lemma step_start s e s' : inv s -> at_start s -> step s e s' -> at_start s'.
Proof.
  intros I H S. pose proof (w_chunks _ _ _ _ (c_wf _ _ _ _ (i_core _ _ _ _ I))) as N. destruct S.
  - exact H.
  - exact H.
  - unfold alloc_small in *. destruct (_ >? _); [discriminate|]. match goal with E : Some _ = Some _ |- _ => injection E as <- <- end. exact H.
  - unfold alloc_init in *. match goal with E : bind _ _ = Ret (_, _) |- _ => rename E into EQ end. out EQ. destruct o as [r s1]. out EQ. injection EQ as <- <-.
    pose proof (alloc3 _ _ _ _ _ E N) as K. apply init3 in E0. pose proof (same3_start _ _ (same3_trans _ _ _ K E0) H) as Q. exact Q.
  - unfold alloc_data in *. match goal with E : bind _ _ = Ret (_, _) |- _ => rename E into EQ end. out EQ. destruct o as [r s1]. destruct (hget (hp s1) r); [|discriminate]. injection EQ as <- <-.
    pose proof (alloc3 _ _ _ _ _ E N) as K. exact (same3_start _ _ K H).
  - match goal with E : modify _ _ _ _ _ _ _ = Ret _ |- _ => unfold modify in E; rename E into EQ end. apply (same3_start s); [|exact H]. out EQ. out EQ. apply wr3 in E0.
    destruct (is_in_heap _ _); [|injection EQ as <-; exact E0]. out EQ.
    assert (same3 o0 o1) as K by (destruct (phase (gc o0)); [now apply darken3 in E1| |]; injection E1 as <-; apply same3_refl).
    destruct (_ && _); [apply push_ref3 in EQ|injection EQ as <-]; eauto using same3_trans.
  - exact H.
  - match goal with E : weak_sub _ _ _ _ = Ret _ |- _ => unfold weak_sub in E; rename E into EQ end. out EQ. out EQ. destruct o0; [discriminate|]. out EQ. injection EQ as <- <-.
    assert (same3 s o0) as K by (destruct (phase (gc s)); [now apply darken3 in E1| |]; injection E1 as <-; apply same3_refl). exact (same3_start _ _ K H).
  - apply (same3_start s); [|exact H]. eapply minor3; eauto.
  - intros P. unfold mark_step in *. destruct (gray (gc s)) as [|v l] eqn:G.
    + destruct (Z.eqb_spec (markhp (gc s)) 0) as [Z0|Z0]; cbn [negb] in *.
      * unfold heap_start in *. destruct (hd_error (chunks s)) as [[c n]|] eqn:HD; [|discriminate]. destruct (pure (gc s)); cbn [negb] in *; match goal with E : Ret _ = Ret _ |- _ => injection E as <- end.
        -- cbn. eauto.
        -- cbn in P. congruence.
      * destruct (_ =? _); [destruct (chunk_after _ _) as [[c m]|]; match goal with E : Ret _ = Ret _ |- _ => injection E as <- end; cbn in P; congruence|].
        destruct (hget _ _) as [b|]; [|match goal with E : Ret _ = Ret _ |- _ => injection E as <- end; cbn in P; congruence].
        match goal with E : bind _ _ = Ret _ |- _ => rename E into EQ end. out EQ. injection EQ as <-. cbn in P. exfalso. destruct (color_eqb _ _); [|injection E as <-; congruence].
        unfold push_gray in E. destruct (_ <? _); [|discriminate]. injection E as <-. cbn in P. congruence.
    + destruct (hget _ _) as [b|]; [|discriminate].
      assert (forall l s s', darken_all grow_ok l s = Ret s' -> phase (gc s') = phase (gc s)) as DA.
      { clear. induction l as [|v l IH]; intros s s' E; cbn [darken_all] in E; [congruence|]. out E. apply darken3 in E0. apply IH in E. destruct E0 as (_ & K & _). congruence. }
      destruct (_ <? _); [match goal with E : darken_all _ _ _ = Ret _ |- _ => apply DA in E; cbn in E; congruence end|].
      destruct (_ =? _); match goal with E : Ret _ = Ret _ |- _ => injection E as <- end; cbn in P; congruence.
  - intros P. unfold weak_phase in *. match goal with E : bind _ _ = Ret _ |- _ => rename E into EQ end. out EQ. injection EQ as <-. cbn in P. discriminate.
  - intros P. destruct (sweep_ok _ _ grow_ok free_size outside ZO FB s I) as (r2 & s2 & E & _ & _ & _ & _ & K); auto. assert (r2 = r /\ s2 = s') as [-> ->] by (split; congruence).
    exfalso. destruct r; [destruct K as (_ & _ & K & _)|destruct K as (K & _)|destruct K as (K & _)]; congruence.
Qed.
Lemma possible_start s : possible s -> inv s /\ at_start s.
Proof.
  intros (c & n & size & evs & C & N & S & Y & O & R). pose proof (init_inv young_start young_end outside ZO c n size C N S Y O) as I.
  assert (at_start (init_st young_start c n size)) as A by (intros P; discriminate).
  induction R as [|s e s1 l s2 ST R IH]; [auto|]. apply IH; [eapply step_inv; eauto|eapply step_start; eauto].
Qed.
Lemma weak_black s v b : inv s -> at_start s -> phase (gc s) = Phase_weak -> reach s v -> hget (hp s) v = Some b -> is_young v = false -> col b = Black.
Proof.
  intros [[W CL _ _] _] A P R B Y. pose proof (good_sv _ _ outside ZO s v b W (reach_good _ _ outside ZO s v W CL R) B) as (b2 & B2 & K).
  assert (b2 = b) as -> by congruence. destruct K as [K|[K|[K|K]]]; try congruence. exfalso. destruct (A P) as (n & HD).
  pose proof (w_lay _ _ _ _ W) as L. destruct (l_in _ _ _ _ L v b B Y) as (_ & _ & c & m & I & Q1 & Q2). pose proof (l_sorted _ _ _ _ L) as SO.
  destruct (chunks s) as [|[c0 n0] l] eqn:CH; [discriminate|]. cbn in HD. injection HD as -> ->. apply StronglySorted_inv in SO as [_ F]. rewrite Forall_forall in F.
  destruct I as [Q|I]; [assert (c = sweep_hp (gc s)) by congruence; lia|]. specialize (F _ I). cbn in F.
  destruct (l_chunk _ _ _ _ L (sweep_hp (gc s)) n) as (_ & NP & _); [rewrite CH; now left|]. lia.
Qed.
End Weak.
