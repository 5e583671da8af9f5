(** What lftexp captures; terms without shared nodes. *)
From Verif Require Import Base Opcodes Back_Model Back_Spec Back_Sim Back_Frame Back_Prog Back_Lift Lam_Spec Lift_Rel Lift_Prim Lift_Sim Lift_Undb Lift_Lft.

(** ** Relations between the state before and after *)
Section Rel.
Variable R : bst -> bst -> Prop.
Hypothesis Rr : forall s, R s s.
Hypothesis Rt : forall a b c, R a b -> R b c -> R a c.
Definition rel {A} (m : M A) : Prop := forall s a s', m s = Ret (a, s') -> R s s'.
Lemma r_ret {A} (a : A) : rel (mret a).
Proof. intros s b s' [= <- <-]. apply Rr. Qed.
Lemma r_bind {A B} (m : M A) (f : A -> M B) : rel m -> (forall a, rel (f a)) -> rel (mbind m f).
Proof. intros Hm Hf s b s' H. apply bind_inv in H as (a & s1 & E & H). eapply Rt; [eapply Hm | eapply Hf]; eauto. Qed.
Lemma r_fatal {A} : rel (@fatal A).
Proof. intros s a s' H. discriminate H. Qed.
Lemma r_obind {A B} (m : M (option A)) (f : A -> M (option B)) : rel m -> (forall a, rel (f a)) -> rel (obind m f).
Proof. intros Hm Hf. apply r_bind; auto. intros [a|]; auto. apply r_ret. Qed.
Lemma r_mmapl {A B} (f : A -> M B) l : (forall a, In a l -> rel (f a)) -> rel (mmapl f l).
Proof. intros H. induction l as [|x l IH]; cbn; [apply r_ret|]. apply r_bind; [apply H; cbn; auto|]. intros y. apply r_bind; [apply IH; intros; apply H; cbn; auto|]. intros ys. apply r_ret. Qed.
Lemma r_omapl {A B} (f : A -> M (option B)) l : (forall a, rel (f a)) -> rel (omapl f l).
Proof. intros H. induction l as [|x l IH]; cbn; [apply r_ret|]. apply r_obind; auto. intros y. apply r_obind; auto. intros ys. apply r_ret. Qed.
Lemma r_raise {A} (o : outcome (A * bst)) : (forall x, o <> Ret x) -> rel (fun _ => o).
Proof. intros H s a s' E. now apply H in E. Qed.
Lemma r_at {A B} (m : bst -> M A) (f : A -> M B) : rel (fun s => m s s) -> (forall a, rel (f a)) -> rel (fun s => mbind (m s) f s).
Proof. intros Hm Hf s b s' H. apply bind_inv in H as (a & s1 & E & H). eapply Rt; [eapply Hm | eapply Hf]; eauto. Qed.
Lemma r_if {A} (b : bst -> bool) (m m' : M A) : rel m -> rel m' -> rel (fun s => if b s then m s else m' s).
Proof. intros H1 H2 s a s'. destruct (b s); [apply H1 | apply H2]. Qed.
Lemma r_get_sh k : rel (get_sh k).
Proof. intros s a s' H. apply get_sh_inv in H as (-> & _). apply Rr. Qed.

Section Un.
Hypothesis r_newnot : rel newLabelNot.
Hypothesis r_set_exp : forall k e, rel (set_sh_exp k e).
Hypothesis r_set_lbl : forall k, rel (fun s => set_sh_lbl k (lnot s) s).
Ltac rr := repeat first [ assumption | apply r_ret | apply r_fatal | apply r_get_sh | apply r_set_exp | apply r_omapl | apply r_obind | apply r_bind | progress intros ].
Lemma r_unref i : forall n e, rel (unref n i e).
Proof.
  induction n as [|n IH]; intros e; [apply r_raise; discriminate|]. cbn [unref].
  assert (C : forall T (cl : list (T * lam)), rel (omapl (fun '(t, a) => let? a0 := unref n i a in some (t, a0)) cl)).
  { intros T cl. apply r_omapl. intros [t a]. rr. apply IH. }
  destruct e; try (rr; auto; fail).
  - destruct (n0 =? i); rr.
  - assert (G : rel (let? es := omapl (unref n i) es in some (Lprim p es))) by (rr; apply IH).
    destruct p as [u | u | tg k | k | k | | lb k | q]; try exact G; destruct k as [|k|k]; try exact G; destruct es as [|[] [|e2 [|]]]; try exact G; rr; auto.
  - apply r_obind; [auto|]. intros. apply r_obind; [apply C|]. rr.
  - apply r_obind; [auto|]. intros. apply r_obind; [apply C|]. rr.
  - apply r_bind; [apply r_get_sh|]. intros [c l]. apply (r_if (fun s => l =? lnot s)); [apply r_ret|].
    apply r_at; [apply r_set_lbl|]. rr. apply IH.
Qed.
Lemma r_opt_refs n : forall l b i acc, rel (opt_refs n b i l acc).
Proof.
  induction l as [|x l IH]; intros b i acc; [apply r_ret|]. cbn [opt_refs].
  assert (D : forall e, rel (let* _ := newLabelNot in
      let* r := (let? acc' := omapl (unref n i) acc in let? b' := unref n i b in some (acc', b')) in
      match r with
      | Some (acc', b') => opt_refs n b' (i - 1) l (e :: acc')
      | None => opt_refs n b (i - 1) l (x :: acc)
      end)).
  { intros e. apply r_bind; [apply r_newnot|]. intros _. apply r_bind. { rr; apply r_unref. } intros [[acc' b']|]; auto. }
  destruct x; auto. destruct p; auto. destruct span as [|[q|q|]|q]; auto. destruct es as [|e [|]]; auto.
Qed.
End Un.
End Rel.

(** ** The variables captured by a term with [k] free variables *)
Definition cap (lo : Z) (s s' : bst) : Prop := forall id, In id (fvr s') -> In id (fvr s) \/ lo <= id.
Lemma cap_refl lo s : cap lo s s.
Proof. intros id. auto. Qed.
Lemma cap_trans lo a b c : cap lo a b -> cap lo b c -> cap lo a c.
Proof. intros H1 H2 id Hi. destruct (H2 id Hi) as [H | H]; auto. Qed.
Lemma cap_le lo lo' s s' : cap lo s s' -> lo' <= lo -> cap lo' s s'.
Proof. intros H L id Hi. destruct (H id Hi); auto. right. lia. Qed.
Lemma cap_same {A} lo (m : M A) : (forall s a s', m s = Ret (a, s') -> fvr s' = fvr s) -> rel (cap lo) m.
Proof. intros H s a s' E id Hi. apply H in E. rewrite E in Hi. auto. Qed.
Lemma c_set_md lo d : rel (cap lo) (set_md d).
Proof. apply cap_same. intros s a s' [= <- <-]. destruct (d >? mdr s); auto. Qed.
Lemma c_newnot lo : rel (cap lo) newLabelNot.
Proof. apply cap_same. now intros s a s' [= <- <-]. Qed.
Lemma c_set_exp lo k e : rel (cap lo) (set_sh_exp k e).
Proof. apply cap_same. unfold set_sh_exp. intros s a s' H. destruct (nth_error (sh s) k) as [[c l]|] eqn:E; [|discriminate]. now injection H as <- <-. Qed.
Lemma c_set_lbl lo k : rel (cap lo) (fun s => set_sh_lbl k (lnot s) s).
Proof. apply cap_same. unfold set_sh_lbl. intros s a s' H. destruct (nth_error (sh s) k) as [[c l]|] eqn:E; [|discriminate]. now injection H as <- <-. Qed.
Lemma c_extClo lo i : lo <= i -> rel (cap lo) (extClo i).
Proof. intros L s a s' [= <- <-]. destruct (i >=? 0); [apply cap_refl|]. intros id Hi. cbn in Hi. apply in_ins in Hi as [-> | Hi]; auto. Qed.
Lemma c_opt_refs lo n l b i acc : rel (cap lo) (opt_refs n b i l acc).
Proof. apply r_opt_refs; [apply cap_refl | apply cap_trans | apply c_newnot | apply c_set_exp | apply c_set_lbl]. Qed.

Lemma closed_lfns j b : forall k, closed k (lfns j b) = closed (k + Z.of_nat j) b.
Proof. induction j as [|j IH]; intros k; [now rewrite Z.add_0_r|]. cbn [lfns closed]. rewrite IH. f_equal. lia. Qed.
Definition closed_let (b : lam) := fix go k l := match l with [] => closed k b | x :: r => closed k x && go (k + 1) r end.
Ltac ands H := repeat (apply andb_prop in H as (H & ?)).
Theorem lft_cap : forall n d e k, closed k e = true -> rel (cap (d - k)) (lftexp n d e).
Proof.
  induction n as [|n IH]; intros d e k HC; [apply r_raise; discriminate|]. cbn [lftexp].
  pose proof (@r_ret _ (cap_refl (d - k))) as Pr. pose proof (@r_bind _ (cap_trans (d - k))) as Pb. pose proof (@r_mmapl _ (cap_refl (d - k)) (cap_trans (d - k))) as Pm.
  assert (C : forall T (cl : list (T * lam)), forallb (fun c => closed k (snd c)) cl = true -> rel (cap (d - k)) (mmapl (fun '(t, a) => let* a0 := lftexp n d a in mret (t, a0)) cl)).
  { intros T cl H. apply Pm. intros [t a] Hi. apply Pb; [|intros; apply Pr]. apply IH. rewrite forallb_forall in H. now apply H in Hi. }
  assert (L : forall d k es, forallb (closed k) es = true -> rel (cap (d - k)) (mmapl (lftexp n d) es)).
  { intros d1 k1 es H. apply r_mmapl; [apply cap_refl | apply cap_trans|]. intros a Hi. apply IH. rewrite forallb_forall in H. auto. }
  assert (S : forall A d1 k1 (m : M A), d1 - k1 = d - k -> rel (cap (d1 - k1)) m -> rel (cap (d - k)) m) by (intros ? ? ? ? <-; auto).
  apply Pb; [apply c_set_md|]. intros _. destruct e; cbn [closed] in HC; try discriminate; ands HC; try (apply Pr).
  - apply Pb; [apply c_extClo; lia | intros; apply Pr].
  - apply Pb; [now apply IH|]. intros. apply Pb; [now apply L | intros; apply Pr].
  - intros s r s' H. apply bind_inv in H as ([q e'] & s1 & E & H). destruct (lftfn_inv _ _ _ _ _ _ (fun d e => q_lftexp n d e) E) as (j & b0 & b' & s2 & lbl & md & -> & E1 & E2 & _ & -> & ->).
    assert (X : cap (d - k) s1 s').
    { destruct (zl (fvr s2) >? 0); [|injection H as _ <-; apply cap_refl]. eapply IH; [|exact H]. cbn [closed]. apply forallb_forall. intros x Hx. apply in_map_iff in Hx as (id & <- & Hi).
      cbn [closed]. rewrite closed_lfns in HC. pose proof (IH _ _ _ HC _ _ _ E1 id Hi) as X. cbn [fvr] in X. destruct X as [[] | X]. lia. }
    intros id Hi. rewrite <- E2. now apply X.
  - change (closed_let e k args = true) in HC.
    assert (A : rel (cap (d - k)) (lift_args (lftexp n) n e d args [])).
    { assert (G : forall l d1 k1 acc, d1 - k1 = d - k -> closed_let e k1 l = true -> rel (cap (d - k)) (lift_args (lftexp n) n e d1 l acc)).
      { induction l as [|x l IHl]; intros d1 k1 acc Q H; cbn [lift_args closed_let] in *.
        - apply Pb; [rewrite <- Q; now apply IH|]. intros. apply c_opt_refs.
        - ands H. apply Pb; [rewrite <- Q; now apply IH|]. intros. apply (IHl _ (k1 + 1)); auto. lia. }
      apply (G _ _ k); auto. }
    destruct args as [|x [|]]; try exact A. destruct e; try exact A. destruct es as [|[] l]; try exact A.
    destruct n0; destruct l; try exact A. cbn in HC. ands HC. apply Pb; [now apply IH | intros; apply Pr].
  - apply Pb; [|intros; apply Pb; [|intros; apply Pr]]; eapply S; try apply L; try apply IH; eauto; lia.
  - apply Pb; [now apply L | intros; apply Pr].
  - apply Pb; [now apply IH|]. intros. apply Pb; [now apply C | intros; apply Pr].
  - apply Pb; [now apply IH|]. intros. apply Pb; [now apply C | intros; apply Pr].
  - repeat (apply Pb; [now apply IH | intros]); apply Pr.
  - apply Pb; [now apply IH|]. intros. apply Pb; [|intros; apply Pr]. eapply S; [|apply IH; eauto]. lia.
  - repeat (apply Pb; [now apply IH | intros]); apply Pr.
  - repeat (apply Pb; [now apply IH | intros]); apply Pr.
  - repeat (apply Pb; [now apply IH | intros]); apply Pr.
  - repeat (apply Pb; [now apply IH | intros]); apply Pr.
  - repeat (apply Pb; [now apply IH | intros]); apply Pr.
Qed.
