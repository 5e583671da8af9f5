(** What generating code leaves alone: the labelled code that follows, the slots of the variables in scope. *)
From Verif Require Import Base Opcodes Back_Model Back_Spec Back_Rel.

(** the labels of the code, and the RESTART instructions, with what follows them *)
Fixpoint lsufs (C : list instr) : list (option Z * list instr) :=
  match C with [] => [] | Klabel l :: C => (Some l, C) :: lsufs C | Krestart :: C => (None, C) :: lsufs C | _ :: C => lsufs C end.
Definition nolab (i : instr) : Prop := match i with Klabel _ | Krestart => False | _ => True end.
Lemma lsufs_cons i C : nolab i -> lsufs (i :: C) = lsufs C.
Proof. destruct i; cbn; easy. Qed.
Lemma lsufs_discard C : lsufs (discardDeadCode C) = lsufs C.
Proof. induction C as [|i C IH]; auto. destruct i; cbn; auto. Qed.
Lemma lsufs_addPop n C : lsufs (addPop n C) = lsufs C.
Proof.
  unfold addPop. revert n. induction C as [|i C IH]; intros n; cbn [addPop_]; destruct (n =? 0); auto.
  destruct i; auto; try (cbn [lsufs]; apply IH). destruct C as [|[] C]; auto.
Qed.

(** [O] is code before [C], with new labels between [a] and [b] *)
Definition ce (a b : Z) (C O : list instr) : Prop :=
  a <= b /\ exists N, lsufs O = N ++ lsufs C /\ NoDup (map fst N) /\ forall x, In x (map fst N) -> exists l, x = Some l /\ a < l <= b.
Lemma ce_refl a C : ce a a C C.
Proof. split; [lia|]. exists []. split; auto. split; [constructor|easy]. Qed.
Lemma ce_trans a b c C1 C2 C3 : ce a b C1 C2 -> ce b c C2 C3 -> ce a c C1 C3.
Proof.
  intros (H1 & N1 & E1 & D1 & B1) (H2 & N2 & E2 & D2 & B2). split; [lia|]. exists (N2 ++ N1). rewrite E2, E1, app_assoc. split; auto.
  rewrite map_app. split.
  - clear - D1 D2 B1 B2. revert D2 B2. generalize (map fst N2). induction l as [|x l IH]; cbn; auto. intros D B. inversion D; subst. constructor; auto.
    rewrite in_app_iff. intros [Hi | Hi]; auto. apply B1 in Hi as (k & -> & Hk). destruct (B (Some k) (or_introl eq_refl)) as (k' & [= <-] & Hk'). lia.
  - intros l. rewrite in_app_iff. intros [Hi | Hi]; [apply B2 in Hi as (k & -> & Hk) | apply B1 in Hi as (k & -> & Hk)]; exists k; split; auto; lia.
Qed.
Lemma ce_eq a b C C' O O' : ce a b C O -> lsufs C' = lsufs C -> lsufs O' = lsufs O -> ce a b C' O'.
Proof. intros (H & N & E & D & B) E1 E2. split; auto. exists N. rewrite E1, E2. auto. Qed.
Lemma ce_le a a' b b' C O : ce a b C O -> a' <= a -> b <= b' -> ce a' b' C O.
Proof. intros (H & N & E & D & B) H1 H2. split; [lia|]. exists N. split; auto. split; auto. intros l Hl. apply B in Hl as (k & -> & Hk). exists k. split; auto. lia. Qed.
Lemma ce_lab a b C O : ce (a + 1) b C O -> ce a b C (Klabel (a + 1) :: O).
Proof.
  intros (H & N & E & D & B). split; [lia|]. exists ((Some (a + 1), O) :: N). cbn. rewrite E. split; auto. split.
  - constructor; auto. intros Hi. apply B in Hi as (k & [= <-] & Hk). lia.
  - intros l [<- | Hi]; [exists (a + 1); split; auto; lia|]. apply B in Hi as (k & -> & Hk). exists k. split; auto. lia.
Qed.

(** the state *)
Definition frs (dp : Z) (s s' : bst) : Prop :=
  firstn (Z.to_nat dp) (va s') = firstn (Z.to_nat dp) (va s) /\ length (va s') = length (va s) /\
  map fst (sh s') = map fst (sh s) /\ still s' = still s /\
  exists new, seen s' = new ++ seen s /\ forall v, In v new -> v_u v = length (still s).
Lemma frs_refl dp s : frs dp s s.
Proof. repeat split; auto. now exists []. Qed.
Lemma frs_trans dp s s1 s2 : frs dp s s1 -> frs dp s1 s2 -> frs dp s s2.
Proof.
  intros (A1 & A2 & A3 & A4 & n1 & A5 & A6) (B1 & B2 & B3 & B4 & n2 & B5 & B6). repeat split; try congruence.
  exists (n2 ++ n1). split; [now rewrite B5, A5, app_assoc|]. intros v [H | H]%in_app_or; auto. rewrite (B6 _ H). congruence.
Qed.
Lemma frs_dp dp dp' s s' : frs dp' s s' -> dp <= dp' -> frs dp s s'.
Proof.
  intros (A1 & A2) H. split; auto. apply (f_equal (firstn (Z.to_nat dp))) in A1. rewrite !firstn_firstn in A1.
  now rewrite !Nat.min_l in A1 by lia.
Qed.
Definition fr dp C s O s' : Prop := ce (lc s) (lc s') C O /\ frs dp s s'.
Lemma fr_refl dp C s : fr dp C s C s.
Proof. split; [apply ce_refl | apply frs_refl]. Qed.
Lemma fr_trans dp C s C1 s1 O s' : fr dp C s C1 s1 -> fr dp C1 s1 O s' -> fr dp C s O s'.
Proof. intros (A & B) (A' & B'). split; [eapply ce_trans | eapply frs_trans]; eauto. Qed.
Lemma fr_step dp dp' C s C1 s1 O s' : fr dp' C1 s1 O s' -> dp <= dp' -> fr dp C s C1 s1 -> fr dp C s O s'.
Proof. intros (A & B) H (A' & B'). split; [eapply ce_trans | eapply frs_trans]; eauto. eapply frs_dp; eauto. Qed.
Lemma fr_eq dp C s O s' O' : lsufs O' = lsufs O -> fr dp C s O s' -> fr dp C s O' s'.
Proof. intros E (A & B). split; auto. eapply ce_eq; eauto. Qed.
Lemma fr_cons dp C s O s' i : nolab i -> fr dp C s O s' -> fr dp C s (i :: O) s'.
Proof. intros H. apply fr_eq. now apply lsufs_cons. Qed.
Lemma fr_uncons dp C s O s' i : nolab i -> fr dp C s (i :: O) s' -> fr dp C s O s'.
Proof. intros H. apply fr_eq. now rewrite lsufs_cons. Qed.
Lemma fr_discard dp C s O s' : fr dp C s O s' -> fr dp C s (discardDeadCode O) s'.
Proof. apply fr_eq, lsufs_discard. Qed.
Lemma fr_addPop dp C s O s' n : fr dp C s O s' -> fr dp C s (addPop n O) s'.
Proof. apply fr_eq, lsufs_addPop. Qed.

(** ** The parts of the monad *)
Lemma bind_inv {A B} (m : M A) (f : A -> M B) s r : mbind m f s = Ret r -> exists a s1, m s = Ret (a, s1) /\ f a s1 = Ret r.
Proof. unfold mbind. destruct (m s) as [(a & s1)| | |]; cbn; try discriminate. eauto. Qed.
Lemma new_label_inv s l s' : new_label s = Ret (l, s') -> l = lc s + 1 /\ lc s' = lc s + 1 /\ (forall dp, frs dp s s') /\ va s' = va s /\ sh s' = sh s /\ seen s' = seen s /\ still s' = still s.
Proof. intros [= <- <-]. cbn. repeat split; auto. now exists []. Qed.
Lemma fr_new s l s' dp C : new_label s = Ret (l, s') -> fr dp C s (Klabel l :: C) s'.
Proof. intros H. apply new_label_inv in H as (-> & L & F & _). split; auto. rewrite L. apply ce_lab. apply ce_refl. Qed.
Lemma fr_new0 s l s' dp C : new_label s = Ret (l, s') -> fr dp C s C s'.
Proof. intros H. apply new_label_inv in H as (-> & L & F & _). split; auto. rewrite L. eapply (ce_le (lc s) (lc s) (lc s)); [apply ce_refl| |]; lia. Qed.
Lemma fr_later s l s1 dp C O s' : new_label s = Ret (l, s1) -> fr dp C s1 O s' -> fr dp C s (Klabel l :: O) s'.
Proof.
  intros H (A & B). apply new_label_inv in H as (-> & L & F & _). rewrite L in A. split; [now apply ce_lab|]. eapply frs_trans; eauto.
Qed.
Lemma fr_label C s l C1 s' dp : labelCode C s = Ret ((l, C1), s') -> fr dp C s C1 s'.
Proof.
  intros H.
  assert (D : (s' = s /\ C1 = C) \/ (new_label s = Ret (l, s') /\ C1 = Klabel l :: C)).
  { destruct C as [|i C]; [right|destruct i; try (right; injection H as <- <- <-; split; reflexivity); left; now injection H as <- <- <-]. injection H as <- <- <-. split; reflexivity. }
  destruct D as [(-> & ->) | (E & ->)]; [apply fr_refl | now apply fr_new].
Qed.
Lemma fr_branch C s b C1 s' dp : makeBranch C s = Ret ((b, C1), s') -> fr dp C s C1 s' /\ nolab b.
Proof.
  intros H.
  assert (D : (s' = s /\ C1 = C /\ nolab b) \/ (exists l, new_label s = Ret (l, s') /\ C1 = Klabel l :: C /\ b = Kbranch l)).
  { destruct C as [|i C]. { right. injection H as <- <- <-. eexists. repeat split. }
    destruct i; try (right; injection H as <- <- <-; eexists; repeat split; fail); left; try (injection H as <- <- <-; repeat split; fail).
    destruct C as [|[] C]; injection H as <- <- <-; repeat split. }
  destruct D as [(-> & -> & N) | (l & E & -> & ->)]; [split; [apply fr_refl|auto] | split; [now apply fr_new | exact I]].
Qed.
Lemma bindEnv_inv n z s d s' : bindEnv n z s = Ret (d, s') -> 0 <= n /\ d = n + 1 /\ (forall C, fr n C s C s') /\
  firstn (Z.to_nat d) (va s') = firstn (Z.to_nat n) (va s) ++ [z] /\ n < Z.of_nat (length (va s)) /\ sh s' = sh s /\ still s' = still s /\ seen s' = seen s.
Proof.
  unfold bindEnv. destruct ((0 <=? n) && (n <? Z.of_nat (length (va s)))) eqn:E; [|discriminate]. intros [= <- <-].
  assert (F : forall l k (x : Z), (k < length l)%nat -> firstn (S k) (set_nth l k x) = firstn k l ++ [x] /\ firstn k (set_nth l k x) = firstn k l).
  { induction l as [|y l IH]; intros [|k] x Hk; cbn in *; try lia; auto. destruct (IH k x ltac:(lia)) as (I1 & I2). cbn in I1, I2. destruct l; [cbn in *; lia|]. now rewrite I1, I2. }
  assert (LS : forall (l : list Z) k (x : Z), length (set_nth l k x) = length l) by (induction l as [|y l IH]; intros [|k] x; cbn; auto).
  destruct (F (va s) (Z.to_nat n) z ltac:(lia)) as (F1 & F2).
  split; [lia|]. split; auto. split; [|split; [|split; [lia|auto]]].
  - intros C. split; [apply ce_refl|]. cbn. split; auto. split; [apply LS|]. repeat split. now exists [].
  - cbn. replace (Z.to_nat (n + 1)) with (S (Z.to_nat n)) by lia. exact F1.
Qed.
Lemma findEnv_inv fv sz n s i s' : findEnv fv sz n s = Ret (i, s') -> s' = s /\ nolab i.
Proof.
  unfold findEnv. destruct (n <? 0).
  - destruct (fv_index n 0 fv); [|discriminate]. now intros [= <- <-].
  - destruct (va_sub n (va s)) as [z|]; [|discriminate]. destruct (z <? 0); [discriminate|]. now intros [= <- <-].
Qed.
Lemma findStk_inv sz n s i s' : findStk sz n s = Ret (i, s') -> s' = s /\ nolab i.
Proof.
  unfold findStk. destruct (va_sub n (va s)) as [z|]; [|discriminate]. destruct (z <? 0); [discriminate|]. now intros [= <- <-].
Qed.
Lemma switch_inv t C s O s' dp : add_SwitchTable t C s = Ret (O, s') -> fr dp C s O s'.
Proof.
  unfold add_SwitchTable. destruct t as [|l0 r]; [discriminate|]. destruct (forallb _ r).
  - assert (A : mret (Kbranch l0 :: discardDeadCode C) s = Ret (O, s') -> fr dp C s O s').
    { intros [= <- <-]. apply fr_cons; [exact I|]. apply fr_discard, fr_refl. }
    destruct C as [|i C]; auto. destruct i; auto. destruct (lbl =? l0); auto. intros [= <- <-]. apply fr_refl.
  - intros [= <- <-]. apply fr_cons; [exact I|]. apply fr_refl.
Qed.
Lemma upd_inv t i l s t' s' : upd_table t i l s = Ret (t', s') -> s' = s /\ 0 <= i < Z.of_nat (length t) /\ t' = set_nth t (Z.to_nat i) l.
Proof. unfold upd_table. destruct ((0 <=? i) && (i <? Z.of_nat (length t))) eqn:E; [|discriminate]. intros [= <- <-]. split; auto. split; auto. lia. Qed.
Lemma lift_inv {A} (o : outcome A) s a s' : lift o s = Ret (a, s') -> o = Ret a /\ s' = s.
Proof. unfold lift. destruct o; cbn; try discriminate. now intros [= <- <-]. Qed.
Lemma note_inv k sf sz dp0 C0 s u s' : note k sf sz dp0 C0 s = Ret (u, s') -> (forall dp C, fr dp C s C s') /\
  seen s' = mkV k (length (still s)) sf sz (firstn (Z.to_nat dp0) (va s)) C0 :: seen s /\ va s' = va s /\ sh s' = sh s /\ still s' = still s.
Proof.
  unfold note. intros [= <- <-]. cbn. split; auto. intros dp C. split; [apply ce_refl|]. cbn. repeat split. eexists [_]. split; [reflexivity|]. now intros v [<- | []].
Qed.
Lemma get_sh_inv k s x s' : get_sh k s = Ret (x, s') -> s' = s /\ nth_error (sh s) k = Some x.
Proof. unfold get_sh. destruct (nth_error (sh s) k); [|discriminate]. now intros [= <- <-]. Qed.
Lemma set_lbl_inv k l s u s' : set_sh_lbl k l s = Ret (u, s') -> (forall dp C, fr dp C s C s') /\ va s' = va s /\ still s' = still s /\ seen s' = seen s /\
  exists e l0, nth_error (sh s) k = Some (e, l0) /\ sh s' = set_nth (sh s) k (e, l).
Proof.
  unfold set_sh_lbl. destruct (nth_error (sh s) k) as [(e & l0)|] eqn:E; [|discriminate]. intros [= <- <-]. cbn. split; [|eauto 10].
  intros dp C. split; [apply ce_refl|]. cbn. split; auto. split; auto. split; [|split; auto; now exists []].
  revert E. generalize (sh s). clear. intros L. revert k. induction L as [|x L IH]; intros [|k] E; cbn in *; try discriminate; auto.
  - now injection E as ->. - f_equal. auto.
Qed.

Definition frC (cx : Z * Z -> Z -> Z -> lam -> list instr -> M (list instr)) : Prop :=
  forall sf sz dp e C s O s', cx sf sz dp e C s = Ret (O, s') -> fr dp C s O s'.

(** destructing the monad; [mb H] takes the first step of [H] apart *)
Ltac mb H := let a := fresh "a" in let s := fresh "st" in let E := fresh "E" in
  apply bind_inv in H as (a & s & E & H); try (destruct a as (? & ?)).
Ltac mret H := injection H as <- <-.

Section Fr.
Variable cx : Z * Z -> Z -> Z -> lam -> list instr -> M (list instr).
Hypothesis IH : frC cx.

(** closing: follow the code backwards *)
Ltac back :=
  repeat first
  [ apply fr_refl
  | match goal with
    | E : cx _ _ _ _ _ _ = Ret (?O, ?s) |- fr _ _ _ ?O ?s => eapply fr_step; [apply (IH _ _ _ _ _ _ _ _ E) | lia | clear E]
    | E : labelCode _ _ = Ret ((_, ?O), ?s) |- fr _ _ _ ?O ?s => eapply fr_step; [apply (fr_label _ _ _ _ _ _ E) | reflexivity | clear E]
    | E : makeBranch _ _ = Ret ((_, ?O), ?s) |- fr _ _ _ ?O ?s => eapply fr_step; [apply (fr_branch _ _ _ _ _ _ E) | reflexivity | clear E]
    | E : new_label _ = Ret (?l, ?s) |- fr _ _ _ (Klabel ?l :: ?C) ?s => eapply fr_step; [apply (fr_new _ _ _ _ _ E) | reflexivity | clear E]
    | E : new_label _ = Ret (_, ?s) |- fr _ _ _ ?C ?s => eapply fr_step; [apply (fr_new0 _ _ _ _ _ E) | reflexivity | clear E]
    | E : forall C, fr _ C _ C ?s |- fr _ _ _ _ ?s => eapply fr_step; [apply E | lia | clear E]
    | E : forall dp C, fr dp C _ C ?s |- fr _ _ _ _ ?s => eapply fr_step; [apply E | lia | clear E]
    | E : fr _ _ _ ?O ?s |- fr _ _ _ ?O ?s => eapply fr_step; [apply E | lia | clear E]
    | |- fr _ _ _ (discardDeadCode _) _ => apply fr_discard
    | |- fr _ _ _ (addPop _ _) _ => apply fr_addPop
    | |- fr _ _ _ (_ :: _) _ => apply fr_cons; [assumption || exact I | ]
    | |- fr _ (?i :: _) ?s _ ?s => eapply fr_uncons with (i := i); [exact I |]
    end ].

Lemma fr_rl sf dp l : forall sz C s O s', compExpList' cx sf sz dp l C s = Ret (O, s') -> fr dp C s O s'.
Proof.
  induction l as [|e l IHl]; intros sz C s O s' H; cbn [compExpList'] in H. { mret H. apply fr_refl. }
  destruct l as [|e2 l]. { eauto. } mb H. apply IHl in H. back.
Qed.
Lemma fr_lr sf dp l : forall sz C s O s', compExpListLR cx sf sz dp l C s = Ret (O, s') -> fr dp C s O s'.
Proof.
  induction l as [|e l IHl]; intros sz C s O s' H; cbn [compExpListLR] in H. { mret H. apply fr_refl. }
  destruct l as [|e2 l]. { eauto. } mb H. apply IHl in E. back.
Qed.
Lemma fr_test2 sf sz dp c t f C s O s' : compTest2 cx sf sz dp c t f C s = Ret (O, s') -> fr dp C s O s'.
Proof.
  unfold compTest2. destruct sf as (l & z). intros H. mb H.
  destruct (is_fail t && (sz =? z)). { mb E. mret E. back. }
  destruct (is_fail f && (sz =? z)). { mb E. mret E. back. }
  mb E. mb E. mb E. mb E. mret E. pose proof (proj2 (fr_branch _ _ _ _ _ dp E0)) as NL. back.
Qed.
Lemma fr_tests sf sz dp br C1 cl : nolab br -> forall s O s', comp_tests cx sf sz dp br C1 cl s = Ret (O, s') -> fr dp C1 s O s'.
Proof.
  intros NL. induction cl as [|(t & e) cl IHc]; intros s O s' H; cbn [comp_tests] in H; [discriminate|].
  destruct cl as [|c2 cl]. { mb H. mret H. back. }
  mb H. mb H. mb H. mret H. apply IHc in E0. apply fr_cons; [exact I|]. eapply fr_step; [apply (IH _ _ _ _ _ _ _ _ E1) | lia|].
  apply fr_cons; auto. eapply fr_later; eauto.
Qed.
Lemma fr_cases sf sz dp br C v : nolab br -> forall s t O s', comp_cases cx sf sz dp br C v s = Ret ((t, O), s') -> fr dp C s O s'.
Proof.
  intros NL. induction v as [|e v IHv]; intros s t O s' H; cbn [comp_cases] in H. { injection H as <- <- <-. apply fr_refl. }
  mb H. apply IHv in E. mb H. mb H. injection H as <- <- <-. back.
Qed.
Lemma fr_switch sf sz dp v br C s O s' : nolab br -> compSwitch cx sf sz dp v br C s = Ret (O, s') -> fr dp C s O s'.
Proof.
  intros NL H. unfold compSwitch in H. mb H. apply fr_cases in E; auto. apply switch_inv with (dp := dp) in H. back.
Qed.
Lemma fr_dec sf sz dp br t : nolab br -> forall C s O s', comp_dec cx sf sz dp br t C s = Ret (O, s') -> fr dp C s O s'.
Proof.
  intros NL. induction t as [|dl IHl low act high dr IHr]; intros C s O s' H; cbn [comp_dec] in H. { mret H. back. }
  mb H. mb H. mb H. mret H.
  assert (FR : fr dp C s l st). { destruct dr. { injection E as <- <- <-. apply fr_refl. } mb E. apply IHr in E2. back. }
  assert (FL : fr dp l st l0 st0). { destruct dl. { injection E0 as <- <- <-. apply fr_refl. } mb E0. apply IHl in E2. back. }
  assert (FA : fr dp l0 st0 a st1). { destruct act as [|e [|]]; try (eapply fr_switch; eauto; fail). back. }
  clear E E0 E1. back.
Qed.
Lemma fr_decision sf sz dp t C s O s' : compDecision cx sf sz dp t C s = Ret (O, s') -> fr dp C s O s'.
Proof.
  intros H. unfold compDecision in H. mb H. destruct (fr_branch _ _ _ _ _ dp E) as (FB & NL). destruct (negb (sz =? snd sf)); [discriminate|].
  apply fr_dec in H; auto. back.
Qed.
Lemma fr_case sf sz dp br C1 cl : nolab br -> forall t s t' O s', comp_case cx sf sz dp br C1 t cl s = Ret ((t', O), s') -> fr dp C1 s O s'.
Proof.
  intros NL. induction cl as [|(tg & e) cl IHc]; intros t s t' O s' H; cbn [comp_case] in H; [discriminate|].
  destruct cl as [|c2 cl].
  - mb H. mb H. mb H. injection H as <- <- <-. apply upd_inv in E1 as (-> & _). back.
  - mb H. mb H. mb H. mb H. injection H as <- <- <-. apply upd_inv in E2 as (-> & _). apply IHc in E. back.
Qed.
Lemma fr_direct sf sz dp size cl C s O s' : compDirectSwitch cx sf sz dp size cl C s = Ret (O, s') -> fr dp C s O s'.
Proof.
  intros H. unfold compDirectSwitch in H. mb H. destruct (fr_branch _ _ _ _ _ dp E) as (FB & NL).
  destruct (negb (sz =? snd sf) && negb (size =? Z.of_nat (length cl))); [discriminate|]. mb H. apply fr_case in E0; auto.
  apply switch_inv with (dp := dp) in H. clear E. back.
Qed.
Lemma fr_let sf na args b : forall sz dp C s O s', complet cx sf na sz dp args b C s = Ret (O, s') -> fr dp C s O s'.
Proof.
  induction args as [|e args IHa]; intros sz dp C s O s' H; cbn [complet] in H. { back. }
  mb H. apply bindEnv_inv in E as (N0 & -> & FB & _). mb H. apply IHa in E. back.
Qed.
Lemma fr_args sf na sz dp args b : forall i C s O s', comparg cx sf na sz dp i args b C s = Ret (O, s') -> fr dp C s O s'.
Proof.
  induction args as [|e args IHa]; intros i C s O s' H; cbn [comparg] in H. { back. }
  destruct e; try discriminate. destruct p; try discriminate. mb H. apply IHa in E. back.
Qed.
Lemma fr_init sf na l args b : forall sz dp C s O s', initarg cx sf na sz dp l args b C s = Ret (O, s') -> fr dp C s O s'.
Proof.
  induction l as [|e l IHl]; intros sz dp C s O s' H; cbn [initarg] in H. { eapply fr_args; eauto. }
  destruct e; try discriminate. destruct p; try discriminate. mb H. apply bindEnv_inv in E as (N0 & -> & FB & _). mb H. mret H. apply IHl in E. back.
Qed.
End Fr.
