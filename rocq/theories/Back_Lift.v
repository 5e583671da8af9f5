(** What UNdeBruijn leaves behind: labels of its own for the functions, and no label for a shared node. *)
From Verif Require Import Base Opcodes Back_Model Back_Frame Back_Prog.

Record good (s : bst) : Prop := {
  g_nd : NoDup (map e_lbl (still s));
  g_pos : forall x, In x (still s) -> 0 < e_lbl x <= lc s /\ 1 <= e_nargs x;
  g_sh : forall k c l, nth_error (sh s) k = Some (c, l) -> l < 0;
  g_lc : 0 <= lc s;
  g_not : lnot s < 0;
  g_seen : seen s = [] }.
Definition pres {A} (m : M A) : Prop := forall s a s', m s = Ret (a, s') -> good s -> good s'.
Lemma p_ret {A} (a : A) : pres (mret a).
Proof. intros s b s' [= <- <-]. auto. Qed.
Lemma p_bind {A B} (m : M A) (f : A -> M B) : pres m -> (forall a, pres (f a)) -> pres (mbind m f).
Proof. intros Hm Hf s b s' H G. apply bind_inv in H as (a & s1 & E & H). eapply Hf; eauto. Qed.
Lemma p_fatal {A} : pres (@fatal A).
Proof. intros s a s' H. discriminate H. Qed.
Lemma p_obind {A B} (m : M (option A)) (f : A -> M (option B)) : pres m -> (forall a, pres (f a)) -> pres (obind m f).
Proof. intros Hm Hf. apply p_bind; auto. intros [a|]; auto. apply p_ret. Qed.
Lemma p_mmapl {A B} (f : A -> M B) l : (forall a, pres (f a)) -> pres (mmapl f l).
Proof. intros H. induction l as [|x l IH]; cbn; [apply p_ret|]. apply p_bind; auto. intros y. apply p_bind; auto. intros ys. apply p_ret. Qed.
Lemma p_omapl {A B} (f : A -> M (option B)) l : (forall a, pres (f a)) -> pres (omapl f l).
Proof. intros H. induction l as [|x l IH]; cbn; [apply p_ret|]. apply p_obind; auto. intros y. apply p_obind; auto. intros ys. apply p_ret. Qed.
Lemma p_diverge {A} : pres (fun _ : bst => @Diverge (A * bst)).
Proof. intros s a s' H. discriminate H. Qed.
Lemma p_extClo i : pres (extClo i).
Proof. intros s a s' [= <- <-] []. destruct (i >=? 0); constructor; auto. Qed.
Lemma p_set_md d : pres (set_md d).
Proof. intros s a s' [= <- <-] []. destruct (d >? mdr s); constructor; auto. Qed.
Lemma p_get_sh k : pres (get_sh k).
Proof. intros s a s' H. apply get_sh_inv in H as (-> & _). auto. Qed.
Lemma p_newnot : pres newLabelNot.
Proof. intros s a s' [= <- <-] []. constructor; auto. cbn. lia. Qed.
Lemma p_newlab : pres new_label.
Proof. intros s a s' [= <- <-] []. constructor; cbn; auto; try lia; intros x Hx; apply g_pos0 in Hx; lia. Qed.
Lemma in_set_nth {A} (l : list A) : forall k k' x y, nth_error (set_nth l k x) k' = Some y -> y = x \/ nth_error l k' = Some y.
Proof. induction l as [|z l IH]; intros [|k] [|k'] x y; cbn; auto; try discriminate; intros H; [left; congruence | eauto]. Qed.
Lemma p_set_exp k e : pres (set_sh_exp k e).
Proof.
  unfold set_sh_exp. intros s a s' H []. destruct (nth_error (sh s) k) as [[c l]|] eqn:E; [|discriminate]. injection H as <- <-. constructor; cbn; auto.
  intros k' c' l' H. apply in_set_nth in H as [[= -> ->] | H]; eauto.
Qed.
Lemma p_set_lbl k : pres (fun s => set_sh_lbl k (lnot s) s).
Proof.
  unfold set_sh_lbl. intros s a s' H []. destruct (nth_error (sh s) k) as [[c l]|] eqn:E; [|discriminate]. injection H as <- <-. constructor; cbn; auto.
  intros k' c' l' H. apply in_set_nth in H as [[= -> ->] | H]; eauto.
Qed.
Lemma p_at {A B} (m : bst -> M A) (f : A -> M B) : pres (fun s => m s s) -> (forall a, pres (f a)) -> pres (fun s => mbind (m s) f s).
Proof. intros Hm Hf s b s' H G. apply bind_inv in H as (a & s1 & E & H). eapply Hf; eauto. Qed.
Lemma p_if {A} (b : bst -> bool) (m m' : M A) : pres m -> pres m' -> pres (fun s => if b s then m s else m' s).
Proof. intros H1 H2 s a s'. destruct (b s); [apply H1 | apply H2]. Qed.
Lemma p_fresh {A} (m : M A) : pres m -> pres (fresh_refs m).
Proof.
  intros H s a s' E []. unfold fresh_refs in E. destruct (m _) as [[b s1]| | |] eqn:Em; try discriminate. injection E as <- <-.
  pose proof (H _ _ _ Em) as G. destruct G; [constructor; auto|]. constructor; auto.
Qed.

Ltac pr := repeat first [ assumption | apply p_ret | apply p_fatal | apply p_diverge | apply p_extClo | apply p_set_md | apply p_get_sh | apply p_newnot | apply p_newlab
  | apply p_set_exp | apply p_mmapl | apply p_omapl | apply p_obind | apply p_bind | apply p_fresh | progress intros ].

Lemma p_unref i : forall n e, pres (unref n i e).
Proof.
  induction n as [|n IH]; intros e; [apply p_diverge|]. cbn [unref].
  assert (C : forall T (cl : list (T * lam)), pres (omapl (fun '(t, a) => let? a0 := unref n i a in some (t, a0)) cl)).
  { intros T cl. apply p_omapl. intros [t a]. pr. apply IH. }
  destruct e; try (pr; auto; fail).
  - destruct (n0 =? i); pr.
  - destruct p as [u | u | tg k | k | k | | lb k | q]; try (pr; apply IH); destruct k as [|k|k]; try (pr; apply IH); destruct es as [|[] [|e2 [|]]]; try (pr; apply IH); pr; auto.
  - apply p_obind; [auto|]. intros. apply p_obind; [apply C|]. pr.
  - apply p_obind; [auto|]. intros. apply p_obind; [apply C|]. pr.
  - apply p_bind; [apply p_get_sh|]. intros [c l]. apply (p_if (fun s => l =? lnot s)); [apply p_ret|].
    apply p_at; [apply p_set_lbl|]. pr. apply IH.
Qed.
Lemma p_opt_refs n : forall l b i acc, pres (opt_refs n b i l acc).
Proof.
  induction l as [|x l IH]; intros b i acc; [apply p_ret|]. cbn [opt_refs].
  assert (D : forall e, pres (let* _ := newLabelNot in
      let* r := (let? acc' := omapl (unref n i) acc in let? b' := unref n i b in some (acc', b')) in
      match r with
      | Some (acc', b') => opt_refs n b' (i - 1) l (e :: acc')
      | None => opt_refs n b (i - 1) l (x :: acc)
      end)).
  { intros e. apply p_bind; [apply p_newnot|]. intros _. apply p_bind. { pr; apply p_unref. } intros [[acc' b']|]; auto. }
  destruct x; auto. destruct p; auto. destruct span as [|[q|q|]|q]; auto. destruct es as [|e [|]]; auto.
Qed.
Lemma p_liftbd lft d e : 1 <= d -> (forall d e, pres (lft d e)) -> pres (liftbd lft d e).
Proof.
  intros Hd H. apply p_bind; auto. intros e'. intros s r s' E G. apply bind_inv in E as (lbl & s1 & E1 & E). injection E1 as <- <-. injection E as <- <-.
  destruct G. constructor; cbn; auto; try lia.
  - constructor; auto. intros Hi. apply in_map_iff in Hi as (x & Ex & Hx). apply g_pos0 in Hx. lia.
  - intros x [<- | Hx]; [cbn; lia|]. apply g_pos0 in Hx. lia.
Qed.
Lemma p_liftfn lft e : (forall d e, pres (lft d e)) -> forall d, 1 <= d -> pres (liftfn lft d e).
Proof. intros H. induction e; intros d Hd; try (now apply p_liftbd). cbn [liftfn]. apply IHe. lia. Qed.

Definition lift_args (lft : Z -> lam -> M lam) (n : nat) (b : lam) :=
  fix lift_args (ea : Z) (l : list lam) (acc : list lam) : M lam :=
    match l with
    | [] => let* b' := lft ea b in opt_refs n b' (ea - 1) acc []
    | x :: r => let* x := lft ea x in lift_args (ea + 1) r (x :: acc)
    end.
Lemma p_lift_args lft n b : (forall d e, pres (lft d e)) -> forall l ea acc, pres (lift_args lft n b ea l acc).
Proof.
  intros H. induction l as [|x l IH]; intros ea acc; cbn [lift_args].
  - apply p_bind; auto. intros. apply p_opt_refs.
  - apply p_bind; auto.
Qed.
Lemma p_lftexp : forall n d e, pres (lftexp n d e).
Proof.
  induction n as [|n IH]; intros d e; [apply p_diverge|]. cbn [lftexp]. apply p_bind; [apply p_set_md|]. intros _.
  assert (C : forall T (cl : list (T * lam)), pres (mmapl (fun '(t, a) => let* a0 := lftexp n d a in mret (t, a0)) cl)).
  { intros T cl. apply p_mmapl. intros [t a]. pr. apply IH. }
  destruct e; try (pr; auto; fail).
  - apply p_bind; [apply p_fresh, p_liftfn; auto; lia|]. intros [q e']. destruct (q >? 0); pr. apply IH.
  - assert (A : pres (lift_args (lftexp n) n e d args [])) by (apply p_lift_args; auto).
    destruct args as [|x [|]]; try exact A. destruct e; try exact A. destruct es as [|[] l]; try exact A.
    destruct n0; destruct l; try exact A. pr. apply IH.
  - apply p_bind; [auto|]. intros. apply p_bind; [apply C|]. pr.
  - apply p_bind; [auto|]. intros. apply p_bind; [apply C|]. pr.
  - apply p_bind; [apply p_get_sh|]. intros [c l]. apply (p_if (fun _ => l =? Nolabel)); [|apply p_ret].
    apply p_at; [apply p_set_lbl|]. pr. apply IH.
Qed.

Theorem undb_lifted fuel e shared r s : UNdeBruijn fuel e (mkB 0 (Nolabel - 1) (map (fun c => (c, Nolabel)) shared) [] [] 0 (repeat (-1) (Z.to_nat 4000)) []) = Ret (r, s) -> lifted s.
Proof.
  intros H.
  assert (G : good s).
  { assert (PR : pres (UNdeBruijn fuel e)).
    { unfold UNdeBruijn. apply p_fresh.
      assert (X : pres (let* e' := lftexp fuel 0 e in fun s => Ret ((Z.of_nat (length (fvr s)), e'), s))).
      { apply p_bind; [apply p_lftexp|]. intros e' s0 a s' [= <- <-]. auto. }
      destruct e; try exact X. apply p_liftfn; [apply p_lftexp | lia]. }
    apply (PR _ _ _ H). constructor; cbn; auto; try lia; try easy. constructor.
    intros k c l HN. rewrite nth_error_map in HN. destruct (nth_error shared k); [|discriminate]. injection HN as _ <-. unfold Nolabel. lia. }
  destruct G. now constructor.
Qed.
