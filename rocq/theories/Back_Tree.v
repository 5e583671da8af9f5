(** The decision trees of compileNBranch find the clause with the given key. *)
From Coq Require Import Sorting.Sorted Sorting.Permutation.
From Verif Require Import Base Opcodes Lex_Model Lex_Run Back_Model Back_Spec.
From Verif Require Back_Sim.

(** ** Sort.sml sorts *)
Section Sort.
Context {A : Type}.
Variable o : A -> A -> bool.
Hypothesis o_total : forall a b, o a b = true \/ o b a = true.
Hypothesis o_trans : forall a b c, o a b = true -> o b c = true -> o a c = true.
Notation le := (fun a b => o a b = true).

Lemma sort_merge_perm xs : forall ys, Permutation (sort_merge o xs ys) (xs ++ ys).
Proof.
  induction xs as [|x xs IH]; intros ys.
  - destruct ys; reflexivity.
  - induction ys as [|y ys IHy]. { cbn. now rewrite app_nil_r. }
    cbn. destruct (o x y). { constructor. apply IH. }
    transitivity (y :: (x :: xs) ++ ys); [apply perm_skip; exact IHy | apply (Permutation_middle (x :: xs))].
Qed.
Lemma sort_merge_sorted xs : forall ys, StronglySorted le xs -> StronglySorted le ys -> StronglySorted le (sort_merge o xs ys).
Proof.
  induction xs as [|x xs IH]; intros ys Hx Hy.
  - destruct ys; auto.
  - induction ys as [|y ys IHy]; auto.
    cbn. inversion Hx as [|? ? Sx Fx]; subst. inversion Hy as [|? ? Sy Fy]; subst. destruct (o x y) eqn:E.
    + constructor; [apply IH; auto|].
      eapply Permutation_Forall; [symmetry; apply sort_merge_perm|]. apply Forall_app. split; auto.
      constructor; auto. eapply Forall_impl; [|exact Fy]. intros z Hz. cbn in *. eauto.
    + constructor; [apply IHy; auto|].
      assert (E' : o y x = true) by (destruct (o_total x y); congruence).
      change (Forall (le y) (sort_merge o (x :: xs) ys)).
      eapply Permutation_Forall; [symmetry; apply sort_merge_perm|]. apply Forall_app. split; auto.
      constructor; auto. eapply Forall_impl; [|exact Fx]. intros z Hz. cbn in *. eauto.
Qed.
Lemma initList_ok l : Permutation (concat (initList o l)) l /\ Forall (StronglySorted le) (initList o l).
Proof.
  induction l as [|a|a b l (IH1 & IH2)] using list_ind2; cbn [initList concat].
  - auto.
  - cbn. split; auto. repeat constructor.
  - destruct (o a b) eqn:E; cbn; split; try (now constructor; [repeat constructor; auto | auto]).
    + now repeat constructor.
    + rewrite IH1. apply perm_swap.
    + assert (E' : o b a = true) by (destruct (o_total a b); congruence). constructor; auto. repeat constructor; auto.
Qed.
Lemma merge2_ok l : Forall (StronglySorted le) l -> Permutation (concat (merge2 o l)) (concat l) /\ Forall (StronglySorted le) (merge2 o l).
Proof.
  induction l as [|a|a b l IH] using list_ind2; cbn [merge2]; intros H; auto.
  inversion H as [|? ? Ha H1]; subst. inversion H1 as [|? ? Hb H2]; subst. destruct (IH H2) as (P1 & P2). split.
  - cbn. rewrite P1, sort_merge_perm. now rewrite app_assoc.
  - constructor; auto. now apply sort_merge_sorted.
Qed.
Lemma mergeAll_ok fuel : forall l r, Forall (StronglySorted le) l -> mergeAll o fuel l = Ret r -> Permutation r (concat l) /\ StronglySorted le r.
Proof.
  induction fuel as [|fuel IH]; intros l r H E; [discriminate|]. cbn [mergeAll] in E.
  destruct l as [|a [|b l]].
  - injection E as <-. split; [auto|constructor].
  - injection E as <-. inversion H; subst. cbn. rewrite app_nil_r. auto.
  - destruct (merge2_ok _ H) as (P1 & P2). apply IH in E as (Q1 & Q2); auto. split; auto. now rewrite Q1.
Qed.
Theorem sort_ok l r : sort o l = Ret r -> Permutation r l /\ StronglySorted le r.
Proof.
  unfold sort. intros H. destruct (initList_ok l) as (P1 & P2). apply mergeAll_ok in H as (Q1 & Q2); auto.
  split; auto. now rewrite Q1.
Qed.
End Sort.

(** ** Searching *)
Fixpoint dlook (t : dtree) (n : Z) : option lam :=
  match t with
  | DTfail => None
  | DTinterval l lo act hi r => if n <? lo then dlook l n else if hi <? n then dlook r n else nth_error act (Z.to_nat (n - lo))
  end.
Fixpoint plook (part : list (Z * list lam * Z)) (n : Z) : option lam :=
  match part with
  | [] => None
  | (lo, act, hi) :: r => if n <? lo then None else if hi <? n then plook r n else nth_error act (Z.to_nat (n - lo))
  end.
Definition plo (x : Z * list lam * Z) := fst (fst x).
Definition phi (x : Z * list lam * Z) := snd x.
Fixpoint incr (part : list (Z * list lam * Z)) : Prop :=
  match part with [] => True | x :: r => plo x <= phi x /\ Forall (fun y => phi x < plo y) r /\ incr r end.
Lemma incr_app a b : incr (a ++ b) <-> incr a /\ incr b /\ Forall (fun x => Forall (fun y => phi x < plo y) b) a.
Proof.
  induction a as [|x a IH]; cbn; [intuition|]. rewrite IH, Forall_app. split.
  - intros (H1 & (H2 & H3) & H4 & H5 & H6). repeat split; auto.
  - intros ((H1 & H2 & H3) & H4 & H5). inversion H5; subst. repeat split; auto.
Qed.
Lemma plook_none part n : Forall (fun y => n < plo y) part -> plook part n = None.
Proof. destruct part as [|((lo & act) & hi) r]; auto. intros H. inversion H; subst. cbn in *. destruct (n <? lo) eqn:E; auto. unfold plo in *. cbn in *. lia. Qed.
Lemma plook_app a lo act hi r n : incr (a ++ (lo, act, hi) :: r) ->
  plook (a ++ (lo, act, hi) :: r) n = if n <? lo then plook a n else if hi <? n then plook r n else nth_error act (Z.to_nat (n - lo)).
Proof.
  induction a as [|((lo1 & act1) & hi1) a IH]; intros H.
  - cbn. destruct (n <? lo); auto.
  - cbn [app incr] in H. destruct H as (H1 & H2 & H3). cbn [app plook]. rewrite (IH H3).
    apply Forall_app in H2 as (_ & H2). inversion H2 as [|? ? H4 _]; subst. unfold plo, phi in *. cbn in *.
    pose proof H3 as H3'. apply incr_app in H3' as (_ & (H5 & _) & _). unfold plo, phi in H5. cbn in H5.
    destruct (n <? lo1) eqn:E1, (n <? lo) eqn:E2, (hi <? n) eqn:E3, (hi1 <? n) eqn:E4; auto; try lia.
Qed.
Lemma make_tree_look fuel : forall part n, (length part < fuel)%nat -> incr part -> dlook (make_tree fuel part) n = plook part n.
Proof.
  induction fuel as [|fuel IH]; intros part n H HI; [lia|].
  assert (E : make_tree (S fuel) part = match part with [] => DTfail | _ =>
      let m := Nat.div2 (length part - 1) in
      match skipn m part with
      | (lo, act, hi) :: r => DTinterval (make_tree fuel (firstn m part)) lo act hi (make_tree fuel r)
      | [] => DTfail end end) by reflexivity.
  rewrite E. destruct part as [|x part']; auto. set (part := x :: part') in *.
  set (m := Nat.div2 (length part - 1)). cbn zeta.
  assert (Hm : (m < length part)%nat). { unfold m. pose proof (Nat.div2_decr (length part - 1) (length part - 1)). unfold part in *. cbn [length] in *. lia. }
  pose proof (firstn_skipn m part) as ES. pose proof (skipn_length m part) as EL.
  destruct (skipn m part) as [|((lo & act) & hi) r] eqn:EK; [cbn [length] in EL; lia|].
  rewrite <- ES in HI |- *. rewrite plook_app by auto. cbn [dlook].
  apply incr_app in HI as (I1 & (_ & _ & I2) & _).
  rewrite ES, !IH; auto; try (rewrite firstn_length_le; lia). cbn [length] in EL; lia.
Qed.

(** ** The parts *)
Definition keys (l : list (Z * lam)) := map fst l.
Definition actok (seg : list (Z * lam)) (lo : Z) (act : list lam) (hi : Z) : Prop :=
  forall n, lo <= n <= hi -> exists e, nth_error act (Z.to_nat (n - lo)) = Some e /\
    (In (n, e) seg \/ (e = Lstaticfail /\ ~ In n (keys seg))).
Inductive parts : list (Z * lam) -> list (Z * list lam * Z) -> Prop :=
| parts_nil : parts [] []
| parts_cons seg post lo act hi part : In lo (keys seg) -> In hi (keys seg) -> Forall (fun k => lo <= k <= hi) (keys seg) ->
    actok seg lo act hi -> parts post part -> parts (seg ++ post) ((lo, act, hi) :: part).
Definition ssorted (l : list (Z * lam)) := StronglySorted Z.lt (keys l).

Lemma ssorted_app a b : ssorted (a ++ b) -> ssorted a /\ ssorted b /\ forall x y, In x (keys a) -> In y (keys b) -> x < y.
Proof.
  unfold ssorted, keys. rewrite map_app. induction (map fst a) as [|k r IH]; cbn; intros H.
  - repeat split; auto. constructor. easy.
  - inversion H as [|? ? S1 F1]; subst. apply IH in S1 as (A & B & C). apply Forall_app in F1 as (F1 & F2). repeat split; auto.
    + constructor; auto.
    + intros x y [<- | Hx] Hy; auto. rewrite Forall_forall in F2. auto.
Qed.
Lemma parts_keys l part : parts l part -> Forall (fun x => In (plo x) (keys l) /\ In (phi x) (keys l)) part.
Proof.
  induction 1 as [|seg post lo act hi part H1 H2 H3 H4 H5 IH]; constructor; unfold keys in *; cbn; rewrite map_app.
  - rewrite !in_app_iff. auto.
  - eapply Forall_impl; [|exact IH]. cbn. intros x (A & B). rewrite !in_app_iff. auto.
Qed.
Lemma parts_incr l part : ssorted l -> parts l part -> incr part.
Proof.
  intros S H. induction H as [|seg post lo act hi part H1 H2 H3 H4 H5 IH]; cbn; auto.
  apply ssorted_app in S as (S1 & S2 & S3). split; [|split; auto].
  - rewrite Forall_forall in H3. unfold plo, phi. cbn. apply H3 in H2. lia.
  - apply parts_keys in H5. eapply Forall_impl; [|exact H5]. cbn. intros x (A & B). auto.
Qed.
Lemma parts_look l part n : ssorted l -> parts l part ->
  match plook part n with
  | Some e => In (n, e) l \/ (e = Lstaticfail /\ ~ In n (keys l))
  | None => ~ In n (keys l)
  end.
Proof.
  intros S H. induction H as [|seg post lo act hi part H1 H2 H3 H4 H5 IH]; cbn [plook]; auto.
  apply ssorted_app in S as (S1 & S2 & S3). rewrite Forall_forall in H3. unfold keys in *. rewrite map_app.
  destruct (n <? lo) eqn:E1.
  { rewrite in_app_iff. intros [Hi | Hi]; [apply H3 in Hi; lia | specialize (S3 _ _ H1 Hi); lia]. }
  destruct (hi <? n) eqn:E2.
  { specialize (IH S2). destruct (plook part n) as [e|].
    - destruct IH as [IH | (IH1 & IH2)]; [left; apply in_app_iff; auto|]. right. split; auto. rewrite in_app_iff.
      intros [Hi | Hi]; auto. apply H3 in Hi. lia.
    - rewrite in_app_iff. intros [Hi | Hi]; auto. apply H3 in Hi. lia. }
  destruct (H4 n) as (e & -> & HE); [lia|]. destruct HE as [HE | (HE1 & HE2)]; [left; apply in_app_iff; auto|].
  right. split; auto. rewrite in_app_iff. intros [Hi | Hi]; auto. specialize (S3 _ _ H2 Hi). lia.
Qed.

(** ** partition makes such parts *)
Lemma key_in l i k : key l i = Ret k -> exists e, nth_error l i = Some (k, e).
Proof. unfold key. destruct (nth_error l i) as [(k' & e)|]; [|discriminate]. intros [= ->]. eauto. Qed.
Lemma find_stop_le l start : forall stop s, (start <= stop)%nat -> find_stop l start stop = Ret s -> (start <= s <= stop)%nat.
Proof.
  induction stop as [|stop IH]; intros s H E; cbn [find_stop] in E.
  - destruct (key l 0) as [a| | |] eqn:E1; try discriminate E. cbn [bind] in E.
    destruct (key l start) as [b| | |]; try discriminate E. cbn [bind] in E. destruct (isub a b); try discriminate E. cbn [bind] in E.
    destruct (_ || _); [discriminate|]. injection E as <-. lia.
  - destruct (Nat.eq_dec start (S stop)) as [-> | N].
    + destruct (key l (S stop)) as [a| | |] eqn:E1; try discriminate E. cbn [bind] in E.
      unfold isub in E. rewrite Z.sub_diag in E. destruct (in_intb 0); try discriminate E. cbn [bind] in E.
      rewrite Z.sub_diag in E. cbn in E. injection E as <-. lia.
    + destruct (key l (S stop)) as [a| | |] eqn:E1; try discriminate E. cbn [bind] in E.
      destruct (key l start) as [b| | |]; try discriminate E. cbn [bind] in E. destruct (isub a b); try discriminate E. cbn [bind] in E.
      destruct (_ || _). { apply IH in E; lia. } injection E as <-. lia.
Qed.
Lemma fill_ok l lo n : forall i a act, fill l lo i n a = Ret act ->
  NoDup (keys (firstn n (skipn i l))) ->
  length act = length a /\ forall d, nth_error act d = 
    match find (fun c => fst c =? lo + Z.of_nat d) (firstn n (skipn i l)) with
    | Some (_, e) => if Nat.ltb d (length a) then Some e else None
    | None => nth_error a d end.
Proof.
  induction n as [|n IH]; intros i a act H ND; cbn [fill] in H.
  - injection H as <-. split; auto.
  - destruct (nth_error l i) as [(k & e)|] eqn:E; [|discriminate]. unfold isub in H.
    destruct (in_intb (k - lo)); [|discriminate]. cbn [bind] in H.
    destruct ((0 <=? k - lo) && (k - lo <? Z.of_nat (length a))) eqn:E2; [|discriminate].
    assert (ES : skipn i l = (k, e) :: skipn (S i) l).
    { clear - E. revert l E. induction i as [|i IH]; intros [|y l] E; try discriminate; cbn in *; [now injection E as ->|]. now apply IH. }
    rewrite ES in *. cbn [firstn keys map] in *. inversion ND as [|? ? N1 N2]; subst.
    apply IH in H as (L & H); auto. rewrite Back_Sim.set_nth_length in *. split; auto.
    intros d. rewrite H. cbn [find fst]. rewrite Back_Sim.nth_error_set_nth.
    destruct (k =? lo + Z.of_nat d) eqn:E3.
    + replace (find _ _) with (@None (Z * lam)).
      2: { symmetry. destruct (find _ _) as [(k1 & e1)|] eqn:EF; auto. exfalso. apply find_some in EF as (F1 & F2).
           cbn in F2. apply N1. apply in_map_iff. exists (k1, e1). split; auto. cbn. lia. }
      replace (Z.to_nat (k - lo)) with d by lia. rewrite Nat.eqb_refl.
      destruct (nth_error a d) eqn:EA.
      * assert (d < length a)%nat by (apply nth_error_Some; congruence). destruct (Nat.ltb_spec d (length a)); auto. lia.
      * apply nth_error_None in EA. destruct (Nat.ltb_spec d (length a)); auto. lia.
    + destruct (find _ _) as [(k1 & e1)|]; auto.
      destruct (Nat.eqb_spec d (Z.to_nat (k - lo))); auto. lia.
Qed.
Lemma nth_error_repeat {A} (x : A) n d : (d < n)%nat -> nth_error (repeat x n) d = Some x.
Proof. revert d; induction n; intros [|d] H; cbn; try lia; auto. apply IHn. lia. Qed.
Lemma nth_firstn {A} (l : list A) n i : (i < n)%nat -> nth_error (firstn n l) i = nth_error l i.
Proof. revert l i. induction n as [|n IH]; intros [|y l] [|i] H; cbn; try lia; auto. apply IH. lia. Qed.
Lemma skipskip {A} (l : list A) n m : skipn n (skipn m l) = skipn (m + n) l.
Proof. revert l. induction m as [|m IH]; intros [|y l]; cbn; auto. now destruct n. Qed.
Lemma nth_skipn {A} (l : list A) n i : nth_error (skipn n l) i = nth_error l (n + i).
Proof. revert l. induction n as [|n IH]; intros [|y l]; cbn; auto. now destruct i. Qed.
Lemma ssorted_nth l i j ki kj : ssorted l -> (i < j)%nat -> nth_error (keys l) i = Some ki -> nth_error (keys l) j = Some kj -> ki < kj.
Proof.
  unfold ssorted. generalize (keys l). intros ks. revert i j. induction ks as [|k ks IH]; intros i j S H Hi Hj; [destruct i; discriminate|].
  inversion S as [|? ? S1 F1]; subst. destruct j as [|j]; [lia|]. destruct i as [|i].
  - injection Hi as ->. cbn in Hj. apply nth_error_In in Hj. rewrite Forall_forall in F1. auto.
  - cbn in *. apply (IH i j); auto. lia.
Qed.
Lemma ssorted_NoDup l : ssorted l -> NoDup (keys l).
Proof. unfold ssorted. induction 1 as [|k ks S IH F]; constructor; auto. intros Hi. rewrite Forall_forall in F. apply F in Hi. lia. Qed.
Lemma ssorted_seg a b c : ssorted (a ++ b ++ c) -> ssorted b.
Proof. intros H. apply ssorted_app in H as (_ & H & _). now apply ssorted_app in H as (H & _). Qed.

Lemma partition_ok fuel : forall l start part, ssorted l -> partition fuel l start = Ret part -> parts (skipn start l) part.
Proof.
  induction fuel as [|fuel IH]; intros l start part SR H; [discriminate|]. cbn [partition] in H.
  destruct (Nat.leb_spec (length l) start) as [L | L].
  { injection H as <-. rewrite skipn_all2 by auto. constructor. }
  destruct (find_stop l start (length l - 1)) as [stop| | |] eqn:EF; try discriminate H. cbn [bind] in H.
  apply find_stop_le in EF; [|lia].
  destruct (key l start) as [lo| | |] eqn:E1; try discriminate H. cbn [bind] in H.
  destruct (extractAct l start stop) as [act| | |] eqn:E2; try discriminate H. cbn [bind] in H.
  destruct (key l stop) as [hi| | |] eqn:E3; try discriminate H. cbn [bind] in H.
  destruct (partition fuel l (S stop)) as [r| | |] eqn:E4; try discriminate H. cbn [bind] in H. injection H as <-.
  apply IH in E4; auto.
  set (seg := firstn (S (stop - start)) (skipn start l)).
  assert (ES : skipn start l = seg ++ skipn (S stop) l).
  { unfold seg. rewrite <- (firstn_skipn (S (stop - start)) (skipn start l)) at 1. f_equal. rewrite skipskip. f_equal. lia. }
  assert (SS : ssorted seg). { apply (ssorted_seg (firstn start l) seg (skipn (S stop) l)). rewrite <- ES, firstn_skipn. auto. }
  apply key_in in E1 as (e1 & E1). apply key_in in E3 as (e3 & E3).
  assert (G1 : nth_error seg 0 = Some (lo, e1)). { unfold seg. rewrite nth_firstn by lia. rewrite nth_skipn. now rewrite Nat.add_0_r. }
  assert (G3 : nth_error seg (stop - start) = Some (hi, e3)). { unfold seg. rewrite nth_firstn by lia. rewrite nth_skipn. replace (start + (stop - start))%nat with stop by lia. auto. }
  assert (LS : length seg = S (stop - start)). { unfold seg. rewrite firstn_length_le; auto. rewrite skipn_length. lia. }
  assert (KR : Forall (fun k => lo <= k <= hi) (keys seg)).
  { rewrite Forall_forall. intros k Hk. apply In_nth_error in Hk as (i & Hi).
    assert (Li : (i < length seg)%nat). { rewrite <- (map_length fst seg). apply nth_error_Some. unfold keys in Hi. congruence. }
    assert (K0 : nth_error (keys seg) 0 = Some lo) by (unfold keys; rewrite nth_error_map, G1; auto).
    assert (K3 : nth_error (keys seg) (stop - start) = Some hi) by (unfold keys; rewrite nth_error_map, G3; auto).
    split.
    - destruct i as [|i]; [assert (k = lo) by congruence; lia|]. pose proof (ssorted_nth seg 0 (S i) lo k SS). assert (lo < k); [|lia]. apply H; auto. lia.
    - destruct (Nat.eq_dec i (stop - start)) as [-> | N]; [assert (k = hi) by congruence; lia|].
      pose proof (ssorted_nth seg i (stop - start) k hi SS). assert (k < hi); [|lia]. apply H; auto. lia. }
  rewrite ES. constructor; auto.
  - apply in_map_iff. exists (lo, e1). split; auto. eapply nth_error_In; eauto.
  - apply in_map_iff. exists (hi, e3). split; auto. eapply nth_error_In; eauto.
  - unfold extractAct, key in E2. rewrite E1, E3 in E2. cbn [bind] in E2. unfold isub in E2.
    destruct (in_intb (hi - lo)); [|discriminate]. cbn [bind] in E2.
    apply fill_ok in E2 as (LA & HA). 2: { apply ssorted_NoDup. exact SS. } fold seg in HA.
    rewrite repeat_length in *. intros n Hn. rewrite HA.
    replace (lo + Z.of_nat (Z.to_nat (n - lo))) with n by lia.
    assert (HL : (Z.to_nat (n - lo) < Z.to_nat (hi - lo + 1))%nat) by lia.
    destruct (find (fun c => fst c =? n) seg) as [(k1 & e)|] eqn:EF1.
    + apply find_some in EF1 as (F1 & F2). cbn in F2. exists e. destruct (Nat.ltb_spec (Z.to_nat (n - lo)) (Z.to_nat (hi - lo + 1))); [|lia].
      split; auto. left. replace n with k1 by lia. auto.
    + exists Lstaticfail. split; [now apply nth_error_repeat|]. right. split; auto. intros Hi. apply in_map_iff in Hi as ((k1 & e) & F1 & F2).
      eapply find_none in EF1; [|exact F2]. cbn in *. lia.
Qed.

Lemma distinct_NoDup l : distinct l = true -> NoDup l.
Proof.
  induction l as [|x l IH]; cbn; intros H; constructor; apply andb_true_iff in H as (H1 & H2); auto.
  intros Hi. apply negb_true_iff in H1. assert (E : existsb (Z.eqb x) l = true); [|congruence].
  apply existsb_exists. exists x. split; auto. lia.
Qed.
Lemma find_key_in n cl e : NoDup (map fst cl) -> In (n, e) cl -> find_key n cl = Some e.
Proof.
  induction cl as [|(k & a) cl IH]; cbn; intros ND Hi; [easy|]. destruct Hi as [E | Hi].
  - injection E as -> ->. now rewrite Z.eqb_refl.
  - inversion ND; subst. destruct (n =? k) eqn:E; auto. exfalso. apply H1. apply in_map_iff. exists (n, e). split; auto. cbn. lia.
Qed.
Lemma find_key_none n cl : ~ In n (map fst cl) -> find_key n cl = None.
Proof.
  induction cl as [|(k & a) cl IH]; cbn; intros H; auto. destruct (n =? k) eqn:E; auto. destruct H. left. lia.
Qed.
Theorem compileNBranch_ok cl t n : compileNBranch cl = Ret t -> distinct (map fst cl) = true ->
  match dlook t n with
  | Some e => find_key n cl = Some e \/ (e = Lstaticfail /\ find_key n cl = None)
  | None => find_key n cl = None
  end.
Proof.
  unfold compileNBranch. intros H D. apply distinct_NoDup in D.
  destruct (sort (fun a b => fst a <=? fst b) cl) as [l| | |] eqn:ES; try discriminate H. cbn [bind] in H.
  destruct (partition (S (length l)) l 0) as [part| | |] eqn:EP; try discriminate H. cbn [bind] in H.
  assert (HT : t = make_tree (S (length part)) part) by congruence. clear H. subst t.
  apply sort_ok in ES as (PM & SS); [|intros; lia|intros; lia].
  assert (S1 : ssorted l).
  { assert (D' : NoDup (keys l)). { eapply Permutation_NoDup; [|exact D]. symmetry. now apply Permutation_map. }
    unfold ssorted. clear - SS D'. unfold keys in *. induction SS as [|(k & e) l SS IH F]; cbn in *; constructor; inversion D'; subst; auto.
    rewrite Forall_forall in *. intros x Hx. apply in_map_iff in Hx as ((k1 & e1) & <- & Hx). apply F in Hx as Hx'. cbn in *.
    assert (k <> k1); [|lia]. intros ->. apply H1. apply in_map_iff. exists (k1, e1). auto. }
  apply partition_ok in EP; auto. cbn [skipn] in EP.
  rewrite make_tree_look by (auto; eapply parts_incr; eauto).
  pose proof (parts_look l part n S1 EP) as HL.
  assert (KN : ~ In n (keys l) -> find_key n cl = None).
  { intros N. apply find_key_none. intros Hi. apply N. eapply Permutation_in; [|exact Hi]. symmetry. now apply Permutation_map. }
  destruct (plook part n) as [e|]; auto. destruct HL as [HL | (HL1 & HL2)]; auto.
  left. apply find_key_in; auto. eapply Permutation_in; eauto.
Qed.

(** every integer in the interval of a node has an action *)
Fixpoint dwf (t : dtree) : Prop :=
  match t with
  | DTfail => True
  | DTinterval l lo act hi r => dwf l /\ dwf r /\ forall n, lo <= n <= hi -> exists e, nth_error act (Z.to_nat (n - lo)) = Some e
  end.
Lemma make_tree_wf fuel : forall part,
  Forall (fun x => forall n, plo x <= n <= phi x -> exists e, nth_error (snd (fst x)) (Z.to_nat (n - plo x)) = Some e) part -> dwf (make_tree fuel part).
Proof.
  induction fuel as [|fuel IH]; intros part H; [exact I|].
  assert (E : make_tree (S fuel) part = match part with [] => DTfail | _ =>
      let m := Nat.div2 (length part - 1) in
      match skipn m part with (lo, act, hi) :: r => DTinterval (make_tree fuel (firstn m part)) lo act hi (make_tree fuel r) | [] => DTfail end end) by reflexivity.
  rewrite E. destruct part as [|x0 part0]; [exact I|]. remember (x0 :: part0) as part. cbv zeta. set (m := Nat.div2 (length part - 1)).
  rewrite <- (firstn_skipn m part) in H. apply Forall_app in H as (H1 & H2).
  destruct (skipn m part) as [|((lo & act) & hi) r]; [exact I|]. inversion H2 as [|? ? H3 H4]; subst. cbn [dwf]. auto.
Qed.
Lemma parts_wf l part : parts l part ->
  Forall (fun x => forall n, plo x <= n <= phi x -> exists e, nth_error (snd (fst x)) (Z.to_nat (n - plo x)) = Some e) part.
Proof.
  induction 1 as [|seg post lo act hi part H1 H2 H3 H4 H5 IH]; constructor; auto.
  intros n Hn. cbn in *. destruct (H4 n) as (e & E & _); eauto.
Qed.
Theorem compileNBranch_wf cl t : compileNBranch cl = Ret t -> distinct (map fst cl) = true -> dwf t.
Proof.
  unfold compileNBranch. intros H D. apply distinct_NoDup in D.
  destruct (sort (fun a b => fst a <=? fst b) cl) as [l| | |] eqn:ES; try discriminate H. cbn [bind] in H.
  destruct (partition (S (length l)) l 0) as [part| | |] eqn:EP; try discriminate H. cbn [bind] in H.
  assert (HT : t = make_tree (S (length part)) part) by congruence. clear H. subst t.
  apply sort_ok in ES as (PM & SS); [|intros; lia|intros; lia].
  assert (S1 : ssorted l).
  { assert (D' : NoDup (keys l)). { eapply Permutation_NoDup; [|exact D]. symmetry. now apply Permutation_map. }
    unfold ssorted. clear - SS D'. unfold keys in *. induction SS as [|(k & e) l SS IH F]; cbn in *; constructor; inversion D'; subst; auto.
    rewrite Forall_forall in *. intros x Hx. apply in_map_iff in Hx as ((k1 & e1) & <- & Hx). apply F in Hx as Hx'. cbn in *.
    assert (k <> k1); [|lia]. intros ->. apply H1. apply in_map_iff. exists (k1, e1). auto. }
  apply partition_ok in EP; auto. cbn [skipn] in EP. apply make_tree_wf. eapply parts_wf; eauto.
Qed.
