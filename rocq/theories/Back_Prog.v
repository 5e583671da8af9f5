(** The whole program: the code of the phrase and of its functions, put together as Emit_phr.sml does. *)
From Verif Require Import Base Opcodes Back_Model Back_Spec Back_Rel Back_Sim Back_Goal Back_Main Back_All Back_Frame Back_Comp Back_Gen.

(** Emit_phr.sml 24-30 *)
Definition program (inits funcs : list instr) : list instr :=
  match funcs with [] => inits | _ => inits ++ Kbranch 0 :: funcs ++ [Klabel 0] end.

(** ** Labels *)
Fixpoint labs (C : list instr) : list Z := match C with [] => [] | Klabel l :: C => l :: labs C | _ :: C => labs C end.
Lemma labs_app A B : labs (A ++ B) = labs A ++ labs B.
Proof. induction A as [|i A IH]; auto. destruct i; cbn; rewrite ?IH; auto. Qed.
Lemma labs_lsufs C : labs C = flat_map (fun x : option Z * list instr => match fst x with Some l => [l] | None => [] end) (lsufs C).
Proof. induction C as [|i C IH]; auto. destruct i; cbn; rewrite ?IH; auto. Qed.
Lemma lsufs_app A B : lsufs (A ++ B) = map (fun x => (fst x, snd x ++ B)) (lsufs A) ++ lsufs B.
Proof. induction A as [|i A IH]; auto. destruct i; cbn; rewrite ?IH; auto. Qed.
Lemma in_labs l D C : In (Some l, D) (lsufs C) -> In l (labs C).
Proof. intros H. rewrite labs_lsufs. apply in_flat_map. exists (Some l, D). cbn. auto. Qed.
Lemma ce_labs a b C O : ce a b C O -> a <= b /\ exists N, labs O = N ++ labs C /\ NoDup N /\ (forall l, In l N -> a < l <= b) /\
  (forall x, In x (lsufs C) -> In x (lsufs O)).
Proof.
  intros (H & N & E & ND & B). split; auto. rewrite !labs_lsufs, E, flat_map_app.
  exists (flat_map (fun x : option Z * list instr => match fst x with Some l => [l] | None => [] end) N). split; auto.
  assert (Q : map Some (flat_map (fun x : option Z * list instr => match fst x with Some l => [l] | None => [] end) N) = map fst N).
  { clear E ND. induction N as [|[o D] N IH]; auto. cbn. destruct (B o) as (l & -> & _); [cbn; auto|]. cbn. f_equal. apply IH.
    intros l' Hl. apply B. cbn. auto. }
  split. { rewrite <- Q in ND. eapply NoDup_map_inv; eauto. }
  split. { intros l Hl. apply (in_map Some) in Hl. rewrite Q in Hl. apply B in Hl as (k & [= <-] & Hk). auto. }
  intros x Hx. apply in_or_app. auto.
Qed.
Lemma find_in P l D : NoDup (labs P) -> In (Some l, D) (lsufs P) -> find_label P l = Some D.
Proof.
  induction P as [|i P IH]; cbn; [easy|]. intros ND H.
  assert (G : (forall l', i <> Klabel l') -> find_label (i :: P) l = Some D).
  { intros NL. destruct i; try (apply IH; auto; fail); try (exfalso; eapply NL; reflexivity). cbn. destruct H as [H | H]; [discriminate|]. auto. }
  destruct i; try (apply G; intros; discriminate). cbn. destruct H as [H | H].
  - injection H as <- <-. now rewrite Z.eqb_refl.
  - inversion ND; subst. destruct (l =? lbl) eqn:E; auto. apply Z.eqb_eq in E as ->. exfalso. eapply in_labs in H. auto.
Qed.
Lemma target_in P l D : NoDup (labs P) -> In (Some l, D) (lsufs P) -> target P l = D.
Proof. intros H1 H2. unfold target. now rewrite (find_in _ _ _ H1 H2). Qed.
Lemma in_none D C : In (None, D) (lsufs C) -> exists A, C = A ++ Krestart :: D.
Proof.
  induction C as [|i C IH]; [easy|].
  assert (G : In (None, D) (lsufs C) -> exists A, i :: C = A ++ Krestart :: D).
  { intros H. apply IH in H as (A & ->). now exists (i :: A). }
  destruct i; cbn; auto; (intros [H | H]; [|now auto]); first [discriminate H | injection H as <-; now exists []].
Qed.
Lemma restart_in A l X : NoDup (labs (A ++ Krestart :: Klabel l :: X)) ->
  find_restart (A ++ Krestart :: Klabel l :: X) l = Some (Krestart :: Klabel l :: X).
Proof.
  induction A as [|i A IH]; intros ND.
  - cbn. now rewrite Z.eqb_refl.
  - assert (ND' : NoDup (labs (A ++ Krestart :: Klabel l :: X))). { cbn in ND. destruct i; auto. now inversion ND. }
    specialize (IH ND'). cbn [app]. cbn [find_restart].
    destruct i; auto. destruct A as [|j A]; [exact IH|]. cbn [app] in *. destruct j; auto.
    destruct (l =? lbl) eqn:E; auto. apply Z.eqb_eq in E as <-. exfalso. cbn in ND'. inversion ND' as [|? ? N _]. apply N.
    rewrite labs_app. apply in_or_app. right. cbn. auto.
Qed.
Lemma grab_in A l n c : grab_label (A ++ Krestart :: Klabel l :: Kgrab n :: c) c = Some l.
Proof.
  induction A as [|i A IH].
  - cbn. now rewrite Nat.eqb_refl.
  - cbn [app]. remember (A ++ Krestart :: Klabel l :: Kgrab n :: c) as R eqn:ER.
    assert (LR : length R = (length A + (3 + length c))%nat). { rewrite ER, app_length. cbn. lia. }
    cbn [grab_label]. destruct i; auto. destruct R as [|j [|k R]]; auto; destruct j; auto. destruct k; auto.
    cbn in LR. destruct (Nat.eqb (length R) (length c)) eqn:E; auto. apply Nat.eqb_eq in E. lia.
Qed.

Lemma NoDup_app_intro {A} (l m : list A) : NoDup l -> NoDup m -> (forall x, In x l -> ~ In x m) -> NoDup (l ++ m).
Proof.
  induction 1 as [|x l H ND IH]; cbn; auto. intros NM D. constructor.
  - rewrite in_app_iff. intros [Hx | Hx]; auto. eapply D; eauto.
  - apply IH; auto.
Qed.

(** ** The functions *)
Definition entry := (Z * Z * list Z * Z * lam)%type.
Definition e_lbl (x : entry) : Z := let '(l, _, _, _, _) := x in l.
Definition e_nargs (x : entry) : Z := let '(_, n, _, _, _) := x in n.
Definition funs (l : list entry) (lbl : Z) : option fundef :=
  match find (fun x => e_lbl x =? lbl) l with
  | Some (_, n, fv, _, e) => Some (mkF (Z.to_nat n) fv e)
  | None => None
  end.
Definition contents (l : list (lam * Z)) (k : nat) : option lam := option_map fst (nth_error l k).

(** the code of a function, in code where its label is [lbl] *)
Definition coded (P K : list instr) shc (O : list instr) (x : entry) : Prop :=
  let '(lbl, n, fv, _, e) := x in
  exists C' D, cmp P K fv shc (fun _ => False) (Nolabel, 0) n (argslots (Z.to_nat n)) e (Kreturn n :: D) C' /\
    In (Some lbl, if n >? 1 then Kgrab (n - 1) :: C' else C') (lsufs O) /\
    (n >? 1 = true -> In (None, Klabel lbl :: Kgrab (n - 1) :: C') (lsufs O)).

Lemma inienv_inv n : forall a z s u s', inienv n a z s = Ret (u, s') -> 0 <= a ->
  frs a s s' /\ lc s' = lc s /\ sh s' = sh s /\ seen s' = seen s /\ still s' = still s /\ a + Z.of_nat n <= Z.of_nat (length (va s)) + (if n then a else 0) /\
  firstn (Z.to_nat a + n) (va s') = firstn (Z.to_nat a) (va s) ++ map (fun i => z - Z.of_nat i) (seq 0 n).
Proof.
  induction n as [|n IH]; intros a z s u s' H Ha.
  - injection H as <- <-. cbn [seq map]. rewrite app_nil_r, Nat.add_0_r. repeat split; auto; try (now exists []). lia.
  - cbn [inienv] in H. apply bind_inv in H as (d & s1 & E & H). assert (LC : lc s1 = lc s).
    { unfold bindEnv in E. destruct (_ && _); [|discriminate]. now injection E as <- <-. }
    apply bindEnv_inv in E as (_ & -> & FB & V & LT & E1 & E2 & E3). destruct (FB []) as (_ & F).
    destruct (IH _ _ _ _ _ H ltac:(lia)) as (F2 & A1 & A2 & A3 & A4 & A5 & A6).
    assert (LV : length (va s1) = length (va s)) by apply F.
    split. { eapply frs_trans; eauto. eapply frs_dp; eauto. lia. }
    split; [congruence|]. split; [congruence|]. split; [congruence|]. split; [congruence|].
    split. { destruct n; lia. }
    replace (Z.to_nat a + S n)%nat with (Z.to_nat (a + 1) + n)%nat by lia. rewrite A6, V, <- app_assoc. f_equal.
    cbn [seq map app]. f_equal; [lia|]. rewrite <- seq_shift, map_map. apply map_ext. intros i. lia.
Qed.
Lemma argslots_eq n : map (fun i => Z.of_nat n - Z.of_nat i) (seq 0 n) = argslots n.
Proof.
  unfold argslots. induction n as [|n IH]; auto.
  rewrite (seq_S n 1), map_app, rev_app_distr. cbn [seq map rev app]. f_equal.
  rewrite <- IH, <- seq_shift, map_map. apply map_ext. intros i. lia.
Qed.

Lemma rest_labs cf : forall n C s O s', compileRest n cf C s = Ret (O, s') ->
  lc s <= lc s' /\ (exists nw, seen s' = nw ++ seen s) /\ (forall x, In x (lsufs C) -> In x (lsufs O)) /\
  exists N, labs O = N ++ labs C /\
    ((forall l, In l (map e_lbl (still s)) -> l <= lc s) -> NoDup (map e_lbl (still s)) ->
     NoDup N /\ forall l, In l N -> lc s < l <= lc s' \/ In l (map e_lbl (still s))).
Proof.
  induction n as [|n IH]; intros C s O s' H; [discriminate|]. cbn [compileRest] in H.
  destruct (still s) as [|[[[[lbl nargs] fv] mx] e] rest] eqn:ES.
  { injection H as <- <-. split; [lia|]. split; [now exists []|]. split; auto. exists []. split; [reflexivity|]. intros _ _. split; [constructor|easy]. }
  apply bind_inv in H as (u & s1 & [= <- <-] & H). apply bind_inv in H as (u2 & s2 & E2 & H). apply bind_inv in H as (C' & s3 & E3 & H).
  pose proof (inienv_inv _ _ _ _ _ _ E2 ltac:(lia)) as (F2 & A1 & A2 & A3 & A4 & _ & _). cbn in A1, A2, A3, A4.
  destruct (fr_compexp _ _ _ _ _ _ _ _ _ _ E3) as (C3 & F3). apply ce_labs in C3 as (L3 & N3 & B1 & B2 & B3 & B4).
  destruct (IH _ _ _ _ H) as (I1 & (nw & I2) & I3 & N & I4 & I5).
  destruct F3 as (_ & _ & _ & S3 & nw3 & S4 & _).
  split; [lia|]. split. { exists (nw ++ nw3). rewrite I2, S4, A3, app_assoc. auto. }
  split. { intros x Hx. apply I3. rewrite <- lsufs_discard in Hx. assert (In x (lsufs C')) by (apply B4; exact Hx). destruct (nargs >? 1); cbn; auto. }
  exists (N ++ lbl :: N3). split.
  { rewrite I4, <- app_assoc. f_equal. assert (EL : labs (discardDeadCode C) = labs C) by (rewrite !labs_lsufs, lsufs_discard; auto).
    cbn in B1. rewrite EL in B1. destruct (nargs >? 1); cbn; rewrite B1; auto. }
  rewrite S3, A4 in I5. intros LE ND. cbn in LE, ND. inversion ND as [|? ? ND1 ND2]; subst.
  destruct I5 as (J1 & J2); auto. { intros l Hl. specialize (LE l (or_intror Hl)). lia. }
  assert (LL : lbl <= lc s) by (apply LE; auto).
  assert (NN : NoDup (lbl :: N3)). { constructor; auto. intros Hi. apply B3 in Hi. lia. }
  split.
  - apply NoDup_app_intro; auto.
    intros l H1 [<- | H2].
    + apply J2 in H1 as [H1 | H1]; [lia|auto].
    + apply B3 in H2. apply J2 in H1 as [H1 | H1]; [lia|]. specialize (LE l (or_intror H1)). lia.
  - intros l [Hl | [<- | Hl]]%in_app_or; [|cbn; auto|].
    + apply J2 in Hl as [Hl | Hl]; [left; lia | cbn; auto].
    + apply B3 in Hl. left. lia.
Qed.

Section Rest.
Variable P K : list instr.
Variable shc : nat -> option lam.
Variable S : list visit.
Hypothesis SOK : shared_ok S.

(** before the code of a function is made *)
Definition shi0 (s : bst) : Prop :=
  (forall k c l, nth_error (sh s) k = Some (c, l) -> shc k = Some c /\ (0 <= l -> exists v, In v (seen s) /\ v_k v = k)) /\
  (forall v, In v (seen s) -> (length (still s) < v_u v)%nat).
Definition shi1 (s : bst) : Prop :=
  (forall k c l, nth_error (sh s) k = Some (c, l) -> shc k = Some c /\ (0 <= l -> exists v, In v (seen s) /\ v_k v = k)) /\
  (forall v, In v (seen s) -> (length (still s) <= v_u v)%nat).
Lemma shi0_shi fv s : shi0 s -> shi P K fv shc (length (still s)) s.
Proof.
  intros (A & B) k c l H. destruct (A _ _ _ H) as (A1 & A2). split; auto. intros H0. destruct (A2 H0) as (v & V1 & V2). exists v. split; auto. split; auto.
  intros HU. specialize (B _ V1). lia.
Qed.
Lemma shi_shi1 fv s s' dp : shi P K fv shc (length (still s)) s' -> shi0 s -> frs dp s s' -> shi1 s'.
Proof.
  intros H (_ & B) (_ & _ & _ & E & n & E2 & E3). split.
  - intros k c l HN. destruct (H _ _ _ HN) as (A1 & A2). split; auto. intros H0. destruct (A2 H0) as (v & V1 & V2 & _). eauto.
  - intros v Hv. rewrite E2 in Hv. rewrite E. apply in_app_or in Hv as [Hv | Hv]; [rewrite (E3 _ Hv); lia|]. specialize (B _ Hv). lia.
Qed.

Lemma rest_ok cf : forall n C s O s', compileRest n cf C s = Ret (O, s') -> shi1 s -> cov P K O -> incl (seen s') S ->
  (forall x, In x (still s) -> 1 <= e_nargs x) -> forall x, In x (still s) -> coded P K shc O x.
Proof.
  induction n as [|n IH]; intros C s O s' H HI HC HS HN x Hx; [discriminate|]. cbn [compileRest] in H.
  destruct (still s) as [|[[[[lbl nargs] fv] mx] e] rest] eqn:ES; [easy|].
  apply bind_inv in H as (u & s1 & E1 & H). assert (s1 = mkB (lc s) (lnot s) (sh s) rest (fvr s) (mdr s) (repeat (-1) (Z.to_nat mx)) (seen s)) by (now injection E1 as _ <-).
  apply bind_inv in H as (u2 & s2 & E2 & H). apply bind_inv in H as (C' & s3 & E3 & H).
  pose proof (inienv_inv _ _ _ _ _ _ E2 ltac:(lia)) as (F2 & A1 & A2 & A3 & A4 & A5 & A6).
  pose proof (rest_labs _ _ _ _ _ _ H) as (_ & (nw & SE) & LI & _).
  assert (N1 : 1 <= nargs). { apply (HN (lbl, nargs, fv, mx, e)). now left. }
  assert (HC' : cov P K C'). { intros l D HD. apply HC, LI. destruct (nargs >? 1); cbn; auto. }
  assert (HS' : incl (seen s3) S). { intros v Hv. apply HS. rewrite SE. apply in_or_app. auto. }
  assert (V2 : vsd nargs s2 = argslots (Z.to_nat nargs)).
  { unfold vsd. cbn in A6. rewrite A6. rewrite <- argslots_eq. apply map_ext. intros i. lia. }
  destruct HI as (HI1 & HI2). rewrite ES in HI2. cbn [length] in HI2.
  assert (I0 : shi0 s2). { subst s1. cbn in *. split.
    - intros k c l HK. rewrite A2 in HK. rewrite A3. eauto.
    - intros v Hv. rewrite A3 in Hv. apply HI2 in Hv. rewrite A4. lia. }
  pose proof (shi0_shi fv _ I0) as IS.
  assert (U2 : length (still s2) = length rest) by (rewrite A4; now subst s1).
  destruct (gen_compexp P K fv shc S (Z.of_nat (length (va s2))) (length (still s2)) SOK cf _ _ _ _ _ _ _ _ (argslots (Z.to_nat nargs)) E3) as (G1 & G2 & _); auto.
  { cbn. lia. }
  { destruct (Z.to_nat nargs) eqn:EZ; [lia|]. destruct F2 as (_ & -> & _). lia. }
  { split; auto. }
  destruct (fr_compexp _ _ _ _ _ _ _ _ _ _ E3) as (_ & F3).
  assert (I3 : shi1 s3). { destruct G2 as (_ & _ & G2). eapply shi_shi1; eauto. }
  assert (S3 : still s3 = rest). { destruct F3 as (_ & _ & _ & -> & _). rewrite A4. now subst s1. }
  destruct Hx as [<- | Hx].
  - exists C', (discardDeadCode C). split; [exact G1|]. split.
    + apply LI. destruct (nargs >? 1); cbn; auto.
    + intros EN. apply LI. rewrite EN. cbn. auto.
  - eapply IH; eauto; rewrite S3; auto. intros y Hy. apply HN. now right.
Qed.
End Rest.

(** ** The program *)
(** what UNdeBruijn leaves to compileRest *)
Record lifted (s : bst) : Prop := {
  l_nd : NoDup (map e_lbl (still s));
  l_pos : forall x, In x (still s) -> 0 < e_lbl x <= lc s /\ 1 <= e_nargs x;
  l_sh : forall k c l, nth_error (sh s) k = Some (c, l) -> l < 0;
  l_lc : 0 <= lc s;
  l_seen : seen s = [] }.

Section Prog.
Variable fuel n : nat.
Variable e : lam.
Variable s0 s1 s2 : bst.
Variable inits funcs : list instr.
Hypothesis HL : lifted s0.
Hypothesis HI : compexp fuel [] (Nolabel, 0) 0 0 e [] s0 = Ret (inits, s1).
Hypothesis HF : compileRest n fuel [] s1 = Ret (funcs, s2).
Hypothesis SOK : shared_ok (seen s2).
Notation P := (program inits funcs).
Notation F := (funs (still s0)).
Notation shc := (contents (sh s0)).
Definition kinits := match funcs with [] => [] | _ => Kbranch 0 :: funcs ++ [Klabel 0] end.
Lemma prog_eq : P = inits ++ kinits.
Proof. unfold program, kinits. destruct funcs; auto. now rewrite app_nil_r. Qed.

Lemma prog_labs : NoDup (labs P).
Proof.
  destruct (fr_compexp _ _ _ _ _ _ _ _ _ _ HI) as (C0 & F0). apply ce_labs in C0 as (L0 & N0 & B1 & B2 & B3 & _).
  cbn in B1. rewrite app_nil_r in B1.
  destruct (rest_labs _ _ _ _ _ _ HF) as (L1 & _ & _ & N & D1 & D2). cbn in D1. rewrite app_nil_r in D1.
  assert (S1 : still s1 = still s0) by apply F0. rewrite S1 in D2.
  assert (PL : forall l, In l (map e_lbl (still s0)) -> 0 < l <= lc s0). { intros l Hl. apply in_map_iff in Hl as (x & <- & Hx). apply (l_pos _ HL _ Hx). }
  destruct D2 as (D2 & D3); [intros l Hl; apply PL in Hl; lia | apply HL |].
  pose proof (l_lc _ HL).
  assert (N1 : NoDup (N0 ++ N)). { apply NoDup_app_intro; auto. intros l H1 H2. apply B3 in H1. apply D3 in H2 as [H2 | H2]; [lia|]. apply PL in H2. lia. }
  unfold program. destruct funcs as [|i fs] eqn:EF.
  - now rewrite B1.
  - rewrite labs_app. cbn [labs]. rewrite labs_app, B1, D1. rewrite app_assoc. apply NoDup_app_intro; auto.
    + cbn. constructor; auto. constructor.
    + intros l Hl [<- | []]. apply in_app_or in Hl as [Hl | Hl]; [apply B3 in Hl; lia|]. apply D3 in Hl as [Hl | Hl]; [lia|]. apply PL in Hl. lia.
Qed.
Lemma target0 : funcs <> [] -> target P 0 = [].
Proof.
  intros NE. apply target_in; [apply prog_labs|]. unfold program. destruct funcs as [|i fs]; [easy|].
  rewrite lsufs_app. apply in_or_app. right. change (lsufs (Kbranch 0 :: (i :: fs) ++ [Klabel 0])) with (lsufs ((i :: fs) ++ [Klabel 0])).
  rewrite lsufs_app. apply in_or_app. right. now left.
Qed.
Lemma cov_inits : cov P kinits inits.
Proof.
  intros l D H. apply target_in; [apply prog_labs|]. rewrite prog_eq, lsufs_app. apply in_or_app. left.
  apply in_map_iff. now exists (Some l, D).
Qed.
Lemma in_funcs x D : In (x, D) (lsufs funcs) -> In (x, D ++ [Klabel 0]) (lsufs P).
Proof.
  intros H. rewrite prog_eq, lsufs_app. apply in_or_app. right. unfold kinits. destruct funcs as [|i fs]; [easy|].
  change (lsufs (Kbranch 0 :: (i :: fs) ++ [Klabel 0])) with (lsufs ((i :: fs) ++ [Klabel 0])).
  rewrite lsufs_app. apply in_or_app. left. apply in_map_iff. now exists (x, D).
Qed.
Lemma cov_funcs : cov P [Klabel 0] funcs.
Proof. intros l D H. apply target_in; [apply prog_labs|]. now apply in_funcs. Qed.

Lemma prog_inits : cmp P kinits [] shc (fun _ => False) (Nolabel, 0) 0 [] e [] inits /\ shi1 shc s1.
Proof.
  destruct (rest_labs _ _ _ _ _ _ HF) as (_ & (nw & SE) & _ & _).
  assert (I0 : shi0 shc s0). { split.
    - intros k c l H. split; [unfold contents; now rewrite H|]. intros H0. apply (l_sh _ HL) in H. lia.
    - rewrite (l_seen _ HL). easy. }
  destruct (gen_compexp P kinits [] shc (seen s2) (Z.of_nat (length (va s0))) (length (still s0)) SOK fuel _ _ _ _ _ _ _ _ [] HI) as (G1 & G2 & _).
  - cbn. lia.
  - lia.
  - reflexivity.
  - split; auto. split; auto. now apply shi0_shi.
  - apply cov_inits.
  - rewrite SE. intros v Hv. apply in_or_app. auto.
  - split; auto. destruct (fr_compexp _ _ _ _ _ _ _ _ _ _ HI) as (_ & F0). destruct G2 as (_ & _ & G2). eapply shi_shi1; eauto.
Qed.
Lemma prog_code : code_ok P F shc (fun _ => False).
Proof.
  intros lbl fd HF1. unfold funs in HF1. destruct (find _ _) as [[[[[l na] fv] mx] b]|] eqn:EF; [|discriminate]. injection HF1 as <-.
  apply find_some in EF as (Hin & El). apply Z.eqb_eq in El. cbn in El. subst l.
  assert (S1 : still s1 = still s0) by apply (fr_compexp _ _ _ _ _ _ _ _ _ _ HI).
  assert (CD : coded P [Klabel 0] shc funcs (lbl, na, fv, mx, b)).
  { eapply rest_ok; eauto. - apply prog_inits. - apply cov_funcs. - apply incl_refl. - rewrite S1. intros x Hx. now apply (l_pos _ HL).
    - now rewrite S1. }
  destruct CD as (C' & D & H1 & H2 & H3). destruct (l_pos _ HL _ Hin) as (_ & N1). cbn in N1. cbn [f_nargs f_fv f_body].
  split; [lia|]. exists [Klabel 0], C', D. replace (Z.of_nat (Z.to_nat na)) with na by lia. split; auto.
  apply in_funcs in H2. split.
  - intros E1. assert (E2 : na >? 1 = false) by lia. rewrite E2 in H2. apply target_in; auto. apply prog_labs.
  - intros E1. assert (E2 : na >? 1 = true) by lia. rewrite E2 in H2. specialize (H3 E2). apply in_funcs, in_none in H3 as (A & H3).
    split; [apply target_in; auto; apply prog_labs|]. cbn [app] in H3. pose proof prog_labs as PL. rewrite H3 in PL |- *. split.
    + now apply restart_in.
    + apply grab_in.
Qed.

(** what the machine does at the end of the code of the phrase *)
Lemma at_end mp base a st ev x t h gm : steps mp P base (mkM kinits a st ev x t h gm) (mkM [] a st ev x t h gm).
Proof.
  unfold kinits. pose proof target0 as T0. destruct funcs as [|i fs] eqn:EF; [apply st_refl|].
  eapply st_cons. { cbn [step pc]. reflexivity. } unfold upd_pc. cbn [accu sp env extra trap heap glob]. rewrite T0 by easy. apply st_refl.
Qed.
Lemma J_end mp base s a st ev x t h gm : J mp P base s (mkM kinits a st ev x t h gm) -> steps mp P base s (mkM [] a st ev x t h gm).
Proof.
  intros HJ. assert (H2 : J mp P base s (mkM [] a st ev x t h gm)).
  { eapply J_trans; eauto. exists (mkM [] a st ev x t h gm), (mkM [] a st ev x t h gm). split; [apply at_end|]. split; [apply st_refl | now left]. }
  destruct H2 as (u & v & A & B & E). assert (v = mkM [] a st ev x t h gm). { inversion B as [|? ? ? E1]; subst; auto. discriminate E1. }
  subst v. destruct E as [-> | (_ & (c & HC) & _)]; auto. discriminate HC.
Qed.

Theorem prog_sim mp p base m st0 g0 r s' w h gm R t ev acc :
  prims_ok mp p F -> eval p (prim_arity mp) F shc m [] [] e (mkS [] st0 g0) = Some (r, s') ->
  Inv F mp p w st0 h g0 gm -> zlen R = base -> t <= base ->
  exists w' h' gm', ext w st0 h w' (sto s') h' /\ Inv F mp p w' (sto s') h' (gl s') gm' /\
    match r with
    | RV v => exists a, vrel F w' (sto s') h' v a /\ steps mp P base (mkM P acc R ev 0 t h gm) (mkM [] a R ev 0 t h' gm')
    | RX v => exists s1, vrel F w' (sto s') h' v (accu s1) /\ steps mp P base (mkM P acc R ev 0 t h gm) s1 /\ raising s1 /\
                step mp P base s1 = None /\ heap s1 = h' /\ glob s1 = gm'
    | RF => True
    end.
Proof.
  intros PO HE HInv HR Ht. pose proof prog_code as CO. pose proof prog_inits as (HCm & _).
  assert (NF : forall c m fv cl s s', (fun _ : lam => False) c -> eval p (prim_arity mp) F shc m fv cl c s <> Some (RF, s')) by easy.
  destruct (sim_all mp p P base F shc _ CO PO NF m e [] [] _ r s' HE _ _ _ _ _ _ HCm w h gm [] R 0 t ev acc) as (w' & h' & gm' & A & B & D).
  { constructor; cbn; auto; try lia.
    - split; [|constructor]. split; [constructor | easy].
    - now left. }
  { split; cbn; auto. lia. }
  exists w', h', gm'. split; auto. split; auto. rewrite <- prog_eq in D. cbn [app] in D.
  destruct r as [v | v |]; auto.
  - destruct D as (st & a & D1 & D2 & D3 & D4). assert (st = []). { destruct D2 as (D2 & _). now destruct st. } subst st.
    exists a. split; auto. cbn [app] in D4. now apply J_end.
  - destruct D as (st & a & D1 & D2 & D3 & (u & v' & E1 & E2 & E3)). assert (st = []). { destruct D2 as (D2 & _). now destruct st. } subst st.
    assert (SN : step mp P base (mkM [Kraise] a ([] ++ R) ev 0 t h' gm') = None).
    { cbn [step pc]. unfold do_raise. cbn [trap]. assert (t <=? base = true) as -> by lia. reflexivity. }
    assert (v' = mkM [Kraise] a ([] ++ R) ev 0 t h' gm'). { inversion E2 as [|? ? ? E4]; subst; auto. rewrite SN in E4. discriminate. }
    subst v'. exists u. destruct E3 as [-> | (X1 & X2 & X3 & X4 & X5 & X6)].
    + split; auto. split; auto. split; [now eexists|]. split; auto.
    + rewrite X4, X5, X6. split; auto. split; auto. split; auto. split; [congruence|auto].
Qed.
End Prog.

