(** Joinability of machine states, and the relation between source values and machine values. *)
From Verif Require Import Base Opcodes Back_Model Back_Spec Back_Rel.

Section Machine.
Variable mp : prims.
Variable P : list instr.
Variable base : Z.

Notation step := (step mp P base).

Inductive steps : mst -> mst -> Prop :=
| st_refl s : steps s s
| st_cons s s1 s2 : step s = Some s1 -> steps s1 s2 -> steps s s2.

Lemma steps_trans s1 s2 s3 : steps s1 s2 -> steps s2 s3 -> steps s1 s3.
Proof. induction 1; intros; auto. econstructor; eauto. Qed.
Lemma steps_one s1 s2 : step s1 = Some s2 -> steps s1 s2.
Proof. intros. econstructor; eauto. constructor. Qed.
Lemma steps_det s a b : steps s a -> steps s b -> steps a b \/ steps b a.
Proof.
  intros Ha. revert b. induction Ha as [s | s s1 s2 E H IH]; intros b Hb; auto.
  inversion Hb as [| ? s1' ? E' H']; subst. { right. econstructor; eauto. }
  rewrite E in E'. injection E' as <-. auto.
Qed.

(** two states that raise the same exception to the same handler *)
Definition raising (s : mst) : Prop := exists c, pc s = Kraise :: c.
Definition eqv (s t : mst) : Prop :=
  s = t \/ (raising s /\ raising t /\ step s = step t /\ accu s = accu t /\ heap s = heap t /\ glob s = glob t).
Lemma eqv_step s t : eqv s t -> s = t \/ step s = step t.
Proof. intros [-> | (_ & _ & H & _)]; auto. Qed.
Lemma eqv_sym s t : eqv s t -> eqv t s.
Proof. intros [-> | (A & B & C & D & E & F)]; [left | right]; auto 10. Qed.
Lemma eqv_trans s t u : eqv s t -> eqv t u -> eqv s u.
Proof.
  intros [-> | (A & B & C & D & E & F)]; auto. intros [<- | (A' & B' & C' & D' & E' & F')].
  - right. auto 10.
  - right. repeat split; auto; congruence.
Qed.

Definition J (s t : mst) : Prop := exists s1 t1, steps s s1 /\ steps t t1 /\ eqv s1 t1.
Lemma J_refl s : J s s.
Proof. exists s, s. repeat split; constructor. auto. Qed.
Lemma J_sym s t : J s t -> J t s.
Proof. intros (a & b & A & B & C). exists b, a. auto using eqv_sym. Qed.
Lemma eqv_steps s t t' : eqv s t -> steps t t' -> t = t' \/ steps s t'.
Proof.
  intros E H. inversion H; subst; auto. right.
  destruct (eqv_step _ _ E) as [-> | E']; auto. econstructor; eauto. congruence.
Qed.
Lemma J_trans s t u : J s t -> J t u -> J s u.
Proof.
  intros (s1 & t1 & A & B & E) (t2 & u2 & A' & B' & E').
  destruct (steps_det _ _ _ B A') as [H | H].
  - destruct (eqv_steps _ _ _ E H) as [<- | H1].
    + exists s1, u2. repeat split; auto. eapply eqv_trans; eauto.
    + exists t2, u2. repeat split; auto. eapply steps_trans; eauto.
  - destruct (eqv_steps _ _ _ (eqv_sym _ _ E') H) as [<- | H1].
    + exists s1, u2. repeat split; auto. eapply eqv_trans; eauto.
    + exists s1, t1. repeat split; auto. eapply steps_trans; eauto.
Qed.
Lemma J_steps s t : steps s t -> J s t.
Proof. intros. exists t, t. repeat split; auto; constructor. auto. Qed.
Lemma J_step_l s s' t : step s = Some s' -> J s' t -> J s t.
Proof. intros E H. eapply J_trans; [apply J_steps, steps_one, E | exact H]. Qed.
Lemma J_step_r s t t' : step t = Some t' -> J s t -> J s t'.
Proof. intros E H. eapply J_trans; [exact H | apply J_steps, steps_one, E]. Qed.
Lemma J_back s t t' : step t = Some t' -> J s t' -> J s t.
Proof. intros E H. apply J_sym. eapply J_step_l; [exact E | apply J_sym, H]. Qed.
Lemma J_eqv s t : eqv s t -> J s t.
Proof. intros. exists s, t. repeat split; auto; constructor. Qed.

(** dropping what is above the trap *)
Lemma take_app a b r : length a = r -> take r (a ++ b) = Some (a, b).
Proof. revert r; induction a; intros r <-; cbn; auto. now rewrite IHa. Qed.
Lemma take_none n s : (length s < n)%nat -> take n s = None.
Proof. revert s. induction n; intros s H; [lia|]. destruct s; auto. cbn in *. rewrite IHn; auto. lia. Qed.
Lemma take_some n s : (n <= length s)%nat -> take n s = Some (firstn n s, skipn n s).
Proof. revert s. induction n; intros s H; auto. destruct s; cbn in *; [lia|]. rewrite IHn; auto. lia. Qed.
Lemma ztake_app a b n : Z.of_nat (length a) = n -> ztake n (a ++ b) = Some (a, b).
Proof. intros <-. unfold ztake. rewrite Nat2Z.id, take_app by auto. destruct (0 <=? Z.of_nat (length a)) eqn:E; auto. lia. Qed.
Lemma do_raise_app c c' a T R e e' x x' t h g :
  t <= Z.of_nat (length R) ->
  do_raise base (mkM c a (T ++ R) e x t h g) a = do_raise base (mkM c' a R e' x' t h g) a.
Proof.
  intros H. unfold do_raise. cbn [trap sp heap glob]. destruct (t <=? base); auto.
  unfold ztake. rewrite app_length.
  destruct (0 <=? Z.of_nat (length T + length R) - t) eqn:E1; [|lia].
  destruct (0 <=? Z.of_nat (length R) - t) eqn:E2; [|lia].
  destruct (Z_lt_le_dec t 0).
  - rewrite !take_none; auto; rewrite ?app_length; lia.
  - rewrite !take_some by (rewrite ?app_length; lia).
    rewrite skipn_app.
    replace (Z.to_nat (Z.of_nat (length T + length R) - t) - length T)%nat with (Z.to_nat (Z.of_nat (length R) - t)) by lia.
    rewrite (skipn_all2 T) by lia. reflexivity.
Qed.
Lemma J_raise c c' a T R e e' x x' t h g :
  t <= Z.of_nat (length R) -> J (mkM (Kraise :: c) a (T ++ R) e x t h g) (mkM (Kraise :: c') a R e' x' t h g).
Proof.
  intros H. apply J_eqv. right. cbn. repeat split; eauto; try (eexists; reflexivity).
  now apply do_raise_app.
Qed.
End Machine.

(** ** Values *)
Section Values.
Variable F : Z -> option fundef.

Definition world := list nat.
Section V.
Variable w : world.
Variable s : store.
Variable h : heap_t.
Fixpoint vrel (v : sval) (a : value) : Prop :=
  match v with
  | SNum n => a = VInt n
  | SAtom t => a = VAtom t
  | SLoc l => exists ad, nth_error w l = Some ad /\ a = VPtr ad
  | SPap l args =>
      exists ad lbl vs ad' avs fd,
        a = VPtr ad /\ ~ In ad w /\ nth_error s l = Some (Clo lbl vs) /\ nth_error w l = Some ad' /\
        F lbl = Some fd /\ (length args < f_nargs fd)%nat /\ args <> [] /\
        nth_error h ad = Some (mkBlock Closure_tag (VRestart lbl :: VPtr ad' :: avs)) /\
        (fix all (vs : list sval) (avs : list value) : Prop :=
           match vs, avs with [], [] => True | v :: vs, a :: avs => vrel v a /\ all vs avs | _, _ => False end) args avs
  | SAny => True
  end.
Lemma all_Forall2 args avs :
  (fix all (vs : list sval) (avs : list value) : Prop :=
     match vs, avs with [], [] => True | v :: vs, a :: avs => vrel v a /\ all vs avs | _, _ => False end) args avs
  <-> Forall2 vrel args avs.
Proof.
  revert avs. induction args as [|v args IH]; intros [|a avs]; split; intros H; auto; try easy.
  - destruct H. constructor; auto. now apply IH.
  - inversion H; subst. split; auto. now apply IH.
Qed.
Definition brel (b : sblock) (m : block) : Prop :=
  match b with
  | Blk t vs => exists avs, m = mkBlock t avs /\ Forall2 vrel vs avs
  | Clo lbl vs => exists avs, m = mkBlock Closure_tag (VCode lbl :: avs) /\ Forall2 vrel vs avs
  end.
End V.

Definition ext (w : world) (s : store) (h : heap_t) (w' : world) (s' : store) (h' : heap_t) : Prop :=
  (exists w2, w' = w ++ w2 /\ forall ad, In ad w2 -> (length h <= ad)%nat) /\
  (length h <= length h')%nat /\
  (forall ad, (ad < length h)%nat -> ~ In ad w -> nth_error h' ad = nth_error h ad) /\
  (forall l lbl vs, nth_error s l = Some (Clo lbl vs) -> nth_error s' l = Some (Clo lbl vs)).

Lemma ext_refl w s h : ext w s h w s h.
Proof. repeat split; auto. exists []. rewrite app_nil_r. split; auto. easy. Qed.
Lemma ext_trans w s h w1 s1 h1 w2 s2 h2 : ext w s h w1 s1 h1 -> ext w1 s1 h1 w2 s2 h2 -> ext w s h w2 s2 h2.
Proof.
  intros ((a & -> & A) & B & C & D) ((b & -> & A') & B' & C' & D'). repeat split; auto.
  - exists (a ++ b). rewrite app_assoc. split; auto. intros ad H. apply in_app_iff in H. destruct H as [H | H]; auto.
    apply A' in H. lia.
  - lia.
  - intros ad H1 H2. rewrite C', C; auto; [lia|]. rewrite in_app_iff. intros [H | H]; auto. apply A in H. lia.
Qed.

Lemma sval_ind' (Q : sval -> Prop) :
  (forall n, Q (SNum n)) -> (forall t, Q (SAtom t)) -> (forall l, Q (SLoc l)) -> Q SAny ->
  (forall l args, Forall Q args -> Q (SPap l args)) -> forall v, Q v.
Proof.
  intros H1 H2 H3 H4 H5. fix IH 1. intros [n | t | l | l args |]; [apply H1 | apply H2 | apply H3 | | apply H4].
  apply H5. induction args as [|v args IHa]; constructor; [apply IH | exact IHa].
Qed.

Lemma vrel_mono w s h w' s' h' : ext w s h w' s' h' -> forall v a, vrel w s h v a -> vrel w' s' h' v a.
Proof.
  intros ((w2 & -> & A) & B & C & D). induction v as [n | t | l | | l args IH] using sval_ind'; cbn; intros a H; auto.
  - destruct H as (ad & H & ->). exists ad. split; auto.
    rewrite nth_error_app1; auto. apply nth_error_Some. congruence.
  - destruct H as (ad & lbl & vs & ad' & avs & fd & -> & N & S1 & W1 & F1 & L & NE & H1 & AL).
    assert (Hl : (ad < length h)%nat) by (apply nth_error_Some; congruence).
    exists ad, lbl, vs, ad', avs, fd. split; auto. split.
    { rewrite in_app_iff. intros [H | H]; auto. apply A in H. lia. }
    split; auto. split. { rewrite nth_error_app1; auto. apply nth_error_Some. congruence. }
    split; auto. split; auto. split; auto. split. { rewrite C; auto. }
    rewrite all_Forall2 in AL |- *. clear - AL IH. revert avs AL.
    induction IH as [|v args Hv IH IH2]; intros avs AL; inversion AL; subst; constructor; auto.
Qed.
Lemma vrels_mono w s h w' s' h' vs avs : ext w s h w' s' h' -> Forall2 (vrel w s h) vs avs -> Forall2 (vrel w' s' h') vs avs.
Proof. intros E H. induction H; constructor; eauto using vrel_mono. Qed.

Variable mp : prims.
Variable p : sprims.
Record Inv (w : world) (s : store) (h : heap_t) (g : sglob) (gm : globals) : Prop := {
  i_len : length w = length s;
  i_nd : NoDup w;
  i_blk : forall l b, nth_error s l = Some b -> exists ad m, nth_error w l = Some ad /\ nth_error h ad = Some m /\ brel w s h b m;
  i_glob : forall u v, slook g u = Some v -> exists a, lookup_glob gm u = Some a /\ vrel w s h v a;
  i_lit : forall k, vrel w s h (slit p k) (lit mp k) }.

Lemma brel_mono w s h w' s' h' b m : ext w s h w' s' h' -> brel w s h b m -> brel w' s' h' b m.
Proof.
  intros E. destruct b; intros (avs & -> & H); exists avs; split; auto; eapply vrels_mono; eauto.
Qed.
Lemma w_lt w s h g gm l ad : Inv w s h g gm -> nth_error w l = Some ad -> (ad < length h)%nat.
Proof.
  intros I H. assert (Hl : (l < length s)%nat). { rewrite <- (i_len _ _ _ _ _ I). apply nth_error_Some. congruence. }
  destruct (nth_error s l) as [b|] eqn:E; [|apply nth_error_None in E; lia].
  destruct (i_blk _ _ _ _ _ I _ _ E) as (ad' & m & H1 & H2 & _). apply nth_error_Some. congruence.
Qed.
Lemma w_in_lt w s h g gm ad : Inv w s h g gm -> In ad w -> (ad < length h)%nat.
Proof. intros I H. apply In_nth_error in H as (l & H). eapply w_lt; eauto. Qed.

(** ** allocation *)
Lemma NoDup_snoc {A} (l : list A) x : NoDup l -> ~ In x l -> NoDup (l ++ [x]).
Proof.
  intros H. induction H as [|y l N H IH]; cbn; intros Hx; constructor; auto; [constructor|].
  rewrite in_app_iff. cbn. intros [E | [E | []]]; subst; auto.
Qed.
Lemma ext_alloc w s h b m : ext w s h (w ++ [length h]) (s ++ [b]) (h ++ [m]).
Proof.
  repeat split.
  - exists [length h]. split; auto. intros ad [<- | []]. lia.
  - rewrite app_length. cbn. lia.
  - intros ad H _. now rewrite nth_error_app1.
  - intros l lbl vs H. rewrite nth_error_app1; auto. apply nth_error_Some. congruence.
Qed.
Lemma ext_garbage w s h m : ext w s h w s (h ++ m).
Proof.
  repeat split; auto.
  - exists []. rewrite app_nil_r. split; auto. easy.
  - rewrite app_length. lia.
  - intros ad H _. now rewrite nth_error_app1.
Qed.
Lemma Inv_ext w s h g gm w' s' h' :
  Inv w s h g gm -> ext w s h w' s' h' -> length w' = length s' -> NoDup w' ->
  (forall l b, nth_error s' l = Some b -> exists ad m, nth_error w' l = Some ad /\ nth_error h' ad = Some m /\ brel w' s' h' b m) ->
  Inv w' s' h' g gm.
Proof.
  intros I E L N B. split; auto.
  - intros u v H. destruct (i_glob _ _ _ _ _ I _ _ H) as (a & H1 & H2). exists a. split; auto. eapply vrel_mono; eauto.
  - intros k. eapply vrel_mono; eauto. apply I.
Qed.
Lemma Inv_garbage w s h g gm m : Inv w s h g gm -> Inv w s (h ++ m) g gm.
Proof.
  intros I. pose proof (ext_garbage w s h m) as E. eapply Inv_ext; eauto; try apply I.
  intros l b H. destruct (i_blk _ _ _ _ _ I _ _ H) as (ad & mb & H1 & H2 & H3).
  exists ad, mb. split; auto. split. { rewrite nth_error_app1; auto. apply nth_error_Some. congruence. }
  eapply brel_mono; eauto.
Qed.
Lemma Inv_alloc w s h g gm b m : Inv w s h g gm ->
  brel (w ++ [length h]) (s ++ [b]) (h ++ [m]) b m ->
  Inv (w ++ [length h]) (s ++ [b]) (h ++ [m]) g gm.
Proof.
  intros I HB. pose proof (ext_alloc w s h b m) as E. eapply Inv_ext; eauto.
  - rewrite !app_length, (i_len _ _ _ _ _ I). reflexivity.
  - apply NoDup_snoc; [apply I|]. intros H1. apply (w_in_lt _ _ _ _ _ _ I) in H1. lia.
  - intros l b' H. destruct (Nat.lt_ge_cases l (length s)) as [Hl | Hl].
    + rewrite nth_error_app1 in H by auto. destruct (i_blk _ _ _ _ _ I _ _ H) as (ad & mb & H1 & H2 & H3).
      exists ad, mb. split. { rewrite nth_error_app1; auto. rewrite (i_len _ _ _ _ _ I). auto. }
      split. { rewrite nth_error_app1; auto. apply nth_error_Some. congruence. }
      eapply brel_mono; eauto.
    + rewrite nth_error_app2 in H by auto. destruct (l - length s)%nat as [|k] eqn:Ek; [|destruct k; discriminate].
      injection H as <-. exists (length h), m. assert (l = length w) by (rewrite (i_len _ _ _ _ _ I); lia). subst l.
      split. { rewrite nth_error_app2, Nat.sub_diag by auto. reflexivity. }
      split; auto. rewrite nth_error_app2, Nat.sub_diag by auto. reflexivity.
Qed.
Lemma Inv_glob w s h g gm u v a : Inv w s h g gm -> vrel w s h v a -> Inv w s h ((u, v) :: g) ((u, a) :: gm).
Proof.
  intros I H. split; try apply I. intros u' v'. cbn. destruct (u' =? u) eqn:E.
  - intros [= <-]. eauto.
  - apply I.
Qed.

(** ** a field is set *)
Lemma nth_error_set_nth {A} (l : list A) n x m : nth_error (set_nth l n x) m = if Nat.eqb m n then (match nth_error l n with Some _ => Some x | None => None end) else nth_error l m.
Proof.
  revert n m. induction l as [|y l IH]; intros n m; cbn.
  - destruct n, m; cbn; auto; now destruct (Nat.eqb m n).
  - destruct n, m; cbn; auto.
Qed.
Lemma set_nth_length {A} (l : list A) n x : length (set_nth l n x) = length l.
Proof. revert n; induction l; intros [|n]; cbn; auto. Qed.
Lemma Forall2_set_nth {A B} (R : A -> B -> Prop) l l' n x y : Forall2 R l l' -> R x y -> Forall2 R (set_nth l n x) (set_nth l' n y).
Proof. intros H HR. revert n. induction H; intros [|n]; cbn; constructor; auto. Qed.

Lemma Inv_replace w s h g gm l t vs ad m0 b m :
  Inv w s h g gm -> nth_error s l = Some (Blk t vs) -> nth_error w l = Some ad -> nth_error h ad = Some m0 ->
  brel w s h b m ->
  ext w s h w (set_nth s l b) (set_nth h ad m) /\ Inv w (set_nth s l b) (set_nth h ad m) g gm.
Proof.
  intros I H1 H2 H3 H4.
  assert (E : ext w s h w (set_nth s l b) (set_nth h ad m)).
  { repeat split.
    - exists []. rewrite app_nil_r. split; auto. easy.
    - now rewrite set_nth_length.
    - intros a _ Ha. rewrite nth_error_set_nth. destruct (Nat.eqb_spec a ad); auto. subst. destruct Ha. eapply nth_error_In; eauto.
    - intros l' lbl vs0 H. rewrite nth_error_set_nth. destruct (Nat.eqb_spec l' l); auto. subst. congruence. }
  split; auto. eapply Inv_ext; eauto; try apply I.
  - rewrite set_nth_length. apply I.
  - intros l' b'. rewrite nth_error_set_nth. destruct (Nat.eqb_spec l' l).
    + subst. rewrite H1. intros [= <-]. exists ad, m. split; auto. split.
      { rewrite nth_error_set_nth, Nat.eqb_refl, H3. reflexivity. }
      eapply brel_mono; eauto.
    + intros H. destruct (i_blk _ _ _ _ _ I _ _ H) as (ad' & mb & A & B & C). exists ad', mb. split; auto. split.
      { rewrite nth_error_set_nth. destruct (Nat.eqb_spec ad' ad); auto. subst.
        destruct n. pose proof (i_nd _ _ _ _ _ I) as ND. rewrite NoDup_nth_error in ND.
        symmetry. apply ND; try congruence. apply nth_error_Some. congruence. }
      eapply brel_mono; eauto.
Qed.
End Values.
