(** Proofs about Listsort. *)
From Coq Require Import Sorting.Sorted Sorting.Permutation.
From Verif Require Import Base OrderSpec Listsort_Model.

Section P.
Context {A : Type} (ordr : A -> A -> comparison) (TP : total_preorder ordr).
Notation le := (ord_le ordr).
Notation sortd := (StronglySorted le).

Lemma sortd_cons x l : sortd (x :: l) <-> Forall (le x) l /\ sortd l.
Proof. split; [intros H; inversion H; auto|intros []; constructor; auto]. Qed.

Lemma Forall_le_trans x y l : le x y -> Forall (le y) l -> Forall (le x) l.
Proof. intros Hxy. apply Forall_impl. intros a. now apply tp_le_trans. Qed.

Lemma take_spec fuel : forall x1 xr ys, (length xr + length ys < fuel)%nat ->
  exists l, take ordr fuel x1 xr ys = Ret l /\ Permutation (x1 :: xr ++ ys) l /\
    (sortd (x1 :: xr) -> sortd ys -> sortd l).
Proof.
  induction fuel as [|fuel IH]; intros x1 xr ys Hf; [lia|].
  cbn [take]. destruct ys as [|y1 yr].
  { exists (x1 :: xr). rewrite app_nil_r. auto. }
  cbn [length] in Hf.
  assert (Hge : ordr x1 y1 <> Lt -> exists l,
     (do r <- take ordr fuel x1 xr yr; Ret (y1 :: r)) = Ret l /\
     Permutation (x1 :: xr ++ y1 :: yr) l /\ (sortd (x1 :: xr) -> sortd (y1 :: yr) -> sortd l)).
  { intros Hn. destruct (IH x1 xr yr) as (l & -> & HP & HS); [lia|]. cbn [bind].
    exists (y1 :: l). split; [reflexivity|]. split.
    - etransitivity; [|apply perm_skip, HP].
      etransitivity; [apply perm_skip, Permutation_sym, Permutation_middle|]. constructor.
    - intros Hx Hy. apply sortd_cons in Hy as [Hy1 Hy2]. constructor; [auto|].
      apply (Permutation_Forall HP). constructor; [now apply tp_total|].
      apply Forall_app. split; [|assumption].
      apply sortd_cons in Hx as [Hx1 _]. eapply Forall_le_trans; [|eassumption]. now apply tp_total. }
  destruct (ordr x1 y1) eqn:E; try (apply Hge; congruence).
  destruct (IH y1 yr xr) as (l & -> & HP & HS); [lia|]. cbn [bind].
  exists (x1 :: l). split; [reflexivity|]. split.
  - apply perm_skip. etransitivity; [|apply HP]. apply Permutation_app_comm with (l' := y1 :: yr).
  - intros Hx Hy. apply sortd_cons in Hx as [Hx1 Hx2]. constructor; [auto|].
    apply (Permutation_Forall HP). constructor; [now apply tp_lt_le|].
    apply Forall_app. split; [|assumption].
    apply sortd_cons in Hy as [Hy1 _]. eapply Forall_le_trans; [|eassumption]. now apply tp_lt_le.
Qed.

Lemma merge_spec xs ys : exists l, merge ordr xs ys = Ret l /\ Permutation (xs ++ ys) l /\
  (sortd xs -> sortd ys -> sortd l).
Proof.
  destruct xs as [|x xr]; cbn [merge].
  - exists ys. auto.
  - apply take_spec. lia.
Qed.

Lemma mergepairs_spec ls : forall l1 k, exists m ms, mergepairs ordr l1 ls k = Ret (m :: ms) /\
  Permutation (l1 ++ concat ls) (m ++ concat ms) /\
  (sortd l1 -> Forall sortd ls -> Forall sortd (m :: ms)).
Proof.
  induction ls as [|l2 lr IH]; intros l1 k; cbn [mergepairs].
  - exists l1, []. auto.
  - destruct (k mod 2 =? 1).
    + exists l1, (l2 :: lr). repeat split; auto.
    + destruct (merge_spec l1 l2) as (l & -> & HP & HS). cbn [bind].
      destruct (IH l (k / 2)) as (m & ms & -> & HP' & HS').
      exists m, ms. split; [reflexivity|]. split.
      * cbn [concat]. rewrite app_assoc. etransitivity; [apply Permutation_app_tail, HP|]. assumption.
      * intros H1 H2. inversion H2; subst. auto.
Qed.

Lemma mergepairs0 ls : forall l1, exists m, mergepairs ordr l1 ls 0 = Ret [m] /\
  Permutation (l1 ++ concat ls) m /\ (sortd l1 -> Forall sortd ls -> sortd m).
Proof.
  induction ls as [|l2 lr IH]; intros l1; cbn [mergepairs].
  - exists l1. cbn [concat]. rewrite app_nil_r. auto.
  - change (0 mod 2 =? 1) with false. cbv iota.
    destruct (merge_spec l1 l2) as (l & -> & HP & HS). cbn [bind].
    change (0 / 2) with 0.
    destruct (IH l) as (m & -> & HP' & HS'). exists m. split; [reflexivity|]. split.
    + cbn [concat]. rewrite app_assoc. etransitivity; [apply Permutation_app_tail, HP|]. assumption.
    + intros H1 H2. inversion H2; subst. auto.
Qed.

Notation ge := (fun x y => le y x).

Lemma nextrun_spec xs : forall run, run <> [] ->
  exists rr tail, nextrun ordr run xs = Ret (rr, tail) /\
    rev rr ++ tail = rev run ++ xs /\ (StronglySorted ge run -> StronglySorted ge rr) /\ 
    (length tail <= length xs)%nat.
Proof.
  induction xs as [|x xr IH]; intros run Hr; cbn [nextrun].
  - exists run, []. repeat split; auto.
  - destruct run as [|h run]; [congruence|]. cbn [hd bind].
    assert (Hge : ordr x h <> Lt -> exists rr tail, nextrun ordr (x :: h :: run) xr = Ret (rr, tail) /\
      rev rr ++ tail = rev (h :: run) ++ x :: xr /\
      (StronglySorted ge (h :: run) -> StronglySorted ge rr) /\ (length tail <= length (x :: xr))%nat).
    { intros Hn. destruct (IH (x :: h :: run)) as (rr & tail & -> & E & HS & HL); [discriminate|].
      exists rr, tail. split; [reflexivity|]. split; [|split].
      - rewrite E. cbn [rev]. rewrite <- !app_assoc. reflexivity.
      - intros HG. apply HS. constructor; [assumption|].
        constructor; [now apply tp_total|].
        inversion HG; subst. eapply Forall_impl; [|eassumption]. cbn. intros a Ha.
        eapply tp_le_trans; [assumption|eassumption|]. now apply tp_total.
      - cbn [length]. lia. }
    destruct (ordr x h) eqn:E; try (apply Hge; congruence).
    exists (h :: run), (x :: xr). repeat split; auto.
Qed.

Lemma sortd_rev l : StronglySorted ge l -> sortd (rev l).
Proof.
  induction l as [|x l IH]; intros H; [constructor|]. inversion H; subst.
  cbn [rev]. 
  assert (G : forall l x, sortd l -> Forall (fun y => le y x) l -> sortd (l ++ [x])).
  { clear. induction l as [|y l IH]; intros x H HF; cbn; [repeat constructor|].
    inversion H; inversion HF; subst. constructor; [auto|]. apply Forall_app. split; auto. }
  apply G; auto. apply Forall_rev. assumption.
Qed.

Lemma sorting_spec fuel : forall xs ls r, (length xs < fuel)%nat ->
  exists l, sorting ordr fuel xs ls r = Ret l /\ Permutation (xs ++ concat ls) l /\
    (Forall sortd ls -> sortd l).
Proof.
  induction fuel as [|fuel IH]; intros xs ls r Hf; [lia|]. cbn [sorting].
  destruct xs as [|x xs].
  - destruct (mergepairs0 ls []) as (m & -> & HP & HS). cbn [bind hdl].
    exists m. split; [reflexivity|]. split; [assumption|]. intros H. apply HS; [constructor|assumption].
  - destruct (nextrun_spec xs [x]) as (rr & tail & -> & E & HS & HL); [discriminate|]. cbn [bind].
    destruct (mergepairs_spec ls (rev rr) (r + 1)) as (m & ms & -> & HP & HS'). cbn [bind].
    cbn [length] in Hf.
    destruct (IH tail (m :: ms) (r + 1)) as (l & -> & HP2 & HS2); [lia|].
    exists l. split; [reflexivity|]. split.
    + etransitivity; [|apply HP2]. 
      change (x :: xs) with ([x] ++ xs). change [x] with (rev [x]). rewrite <- E.
      rewrite <- app_assoc. etransitivity; [apply Permutation_app_comm|]. rewrite <- app_assoc.
      apply Permutation_app_head. etransitivity; [apply Permutation_app_comm|]. assumption.
    + intros H. apply HS2. apply HS'; [|assumption]. apply sortd_rev, HS. repeat constructor.
Qed.

Theorem sort_spec xs : exists l, sort ordr xs = Ret l /\ Permutation xs l /\ sortd l.
Proof.
  destruct xs as [|x1 [|x2 [|x3 xs]]].
  - exists []. repeat constructor.
  - exists [x1]. repeat constructor.
  - unfold sort. destruct (ordr x1 x2) eqn:E.
    + exists [x1; x2]. repeat constructor. unfold ord_le; congruence.
    + exists [x1; x2]. repeat constructor. unfold ord_le; congruence.
    + exists [x2; x1]. repeat constructor. apply tp_total; [assumption|congruence].
  - destruct (sorting_spec (S (length (x1 :: x2 :: x3 :: xs))) (x1 :: x2 :: x3 :: xs) [] 0) as (l & E & HP & HS); [lia|].
    exists l. split; [exact E|]. split.
    + cbn [concat] in HP. now rewrite app_nil_r in HP.
    + apply HS. constructor.
Qed.

Lemma sorted_h_spec xs : forall x0, sorted_h ordr x0 xs = true <-> sortd (x0 :: xs).
Proof.
  induction xs as [|x1 xr IH]; intros x0; cbn [sorted_h].
  - split; [repeat constructor|reflexivity].
  - rewrite andb_true_iff, IH. split.
    + intros [H1 H2]. constructor; [assumption|].
      assert (le x0 x1) by (unfold ord_le; destruct (ordr x0 x1); congruence).
      constructor; [assumption|]. apply sortd_cons in H2 as [H2 _].
      eapply Forall_le_trans; eassumption.
    + intros H. apply sortd_cons in H as [H1 H2]. split; [|assumption].
      inversion H1; subst. unfold ord_le in *. destruct (ordr x0 x1); congruence.
Qed.

Theorem sorted_spec xs : sorted ordr xs = true <-> sortd xs.
Proof.
  destruct xs as [|x xs]; cbn [sorted]; [split; [constructor|reflexivity]|apply sorted_h_spec].
Qed.

(** mergeUniq on strictly increasing lists *)
Notation lt := (ord_lt ordr).
Notation incr := (StronglySorted lt).

Lemma incr_cons x l : incr (x :: l) <-> Forall (lt x) l /\ incr l.
Proof. split; [intros H; inversion H; auto|intros []; constructor; auto]. Qed.

Lemma lt_trans x y z : lt x y -> lt y z -> lt x z.
Proof. unfold ord_lt. intros. eapply tp_lt_le_trans; eauto. now apply tp_lt_le. Qed.

Lemma Forall_lt_trans x y l : lt x y -> Forall (lt y) l -> Forall (lt x) l.
Proof. intros Hxy. apply Forall_impl. intros a. now apply lt_trans. Qed.

Lemma takeUniq_spec fuel : forall x1 xr ys, (length xr + length ys < fuel)%nat ->
  exists l, takeUniq ordr fuel x1 xr ys = Ret l /\
    (forall z, In z l -> In z (x1 :: xr) \/ In z ys) /\
    (forall z, In z (x1 :: xr) \/ In z ys -> exists z', In z' l /\ ordr z z' = Eq) /\
    (incr (x1 :: xr) -> incr ys -> incr l).
Proof.
  induction fuel as [|fuel IH]; intros x1 xr ys Hf; [lia|].
  cbn [takeUniq]. destruct ys as [|y1 yr].
  { exists (x1 :: xr). repeat split; auto.
    intros z [H|[]]. exists z. split; [assumption|now apply tp_refl]. }
  cbn [length] in Hf.
  destruct (ordr x1 y1) eqn:E.
  - destruct (IH x1 xr yr) as (l & -> & H1 & H2 & H3); [lia|].
    exists l. split; [reflexivity|]. split; [|split].
    + intros z Hz. apply H1 in Hz as [?|?]; [now left|right; now right].
    + intros z [Hz|[<-|Hz]]; [apply H2; now left| |apply H2; now right].
      destruct (H2 x1) as (z' & Hz' & Ez); [left; now left|].
      exists z'. split; [assumption|]. eapply tp_eq_trans; [assumption| |exact Ez].
      now apply tp_eq_sym.
    + intros Hx Hy. apply incr_cons in Hy as [_ Hy]. auto.
  - destruct (IH y1 yr xr) as (l & -> & H1 & H2 & H3); [lia|]. cbn [bind].
    exists (x1 :: l). split; [reflexivity|]. split; [|split].
    + intros z [<-|Hz]; [left; now left|]. apply H1 in Hz as [?|?]; [now right|left; now right].
    + intros z [[<-|Hz]|Hz].
      * exists x1. split; [now left|now apply tp_refl].
      * destruct (H2 z) as (z' & ? & ?); [now right|]. exists z'. split; [now right|assumption].
      * destruct (H2 z) as (z' & ? & ?); [now left|]. exists z'. split; [now right|assumption].
    + intros Hx Hy. pose proof Hx as Hx'. apply incr_cons in Hx as [Hx1 Hx2].
      constructor; [auto|]. apply Forall_forall. intros z Hz. apply H1 in Hz as [Hz|Hz].
      * apply incr_cons in Hy as [Hy1 _]. destruct Hz as [<-|Hz]; [assumption|].
        rewrite Forall_forall in Hy1. eapply lt_trans; [exact E|]. auto.
      * rewrite Forall_forall in Hx1. auto.
  - destruct (IH x1 xr yr) as (l & -> & H1 & H2 & H3); [lia|]. cbn [bind].
    exists (y1 :: l). split; [reflexivity|]. split; [|split].
    + intros z [<-|Hz]; [right; now left|]. apply H1 in Hz as [?|?]; [now left|right; now right].
    + intros z [Hz|[<-|Hz]].
      * destruct (H2 z) as (z' & ? & ?); [now left|]. exists z'. split; [now right|assumption].
      * exists y1. split; [now left|now apply tp_refl].
      * destruct (H2 z) as (z' & ? & ?); [now right|]. exists z'. split; [now right|assumption].
    + intros Hx Hy. apply incr_cons in Hy as [Hy1 Hy2].
      constructor; [auto|]. apply Forall_forall. intros z Hz.
      assert (lt y1 x1) by (unfold ord_lt; now apply tp_gt_lt).
      apply H1 in Hz as [Hz|Hz].
      * apply incr_cons in Hx as [Hx1 _]. destruct Hz as [<-|Hz]; [assumption|].
        rewrite Forall_forall in Hx1. eapply lt_trans; [eassumption|]. auto.
      * rewrite Forall_forall in Hy1. auto.
Qed.

Theorem mergeUniq_spec xs ys : incr xs -> incr ys ->
  exists l, mergeUniq ordr xs ys = Ret l /\ incr l /\
    (forall z, In z l -> In z xs \/ In z ys) /\
    (forall z, In z xs \/ In z ys -> exists z', In z' l /\ ordr z z' = Eq).
Proof.
  intros Hx Hy. destruct xs as [|x xr]; cbn [mergeUniq].
  - exists ys. repeat split; auto. intros z [[]|H]. exists z. split; [assumption|now apply tp_refl].
  - destruct (takeUniq_spec (S (length xr + length ys)) x xr ys) as (l & E & H1 & H2 & H3); [lia|].
    exists l. auto.
Qed.

(** eqclasses *)
Definition equiv_class (cs : list A) : Prop :=
  cs <> [] /\ forall x y, In x cs -> In y cs -> ordr x y = Eq.
Definition class_lt (c1 c2 : list A) : Prop :=
  forall x y, In x c1 -> In y c2 -> ordr x y = Lt.

Lemma group_spec rest : forall last cs1 css,
  StronglySorted ge (last :: rest) ->
  In last cs1 -> equiv_class cs1 -> Forall equiv_class css ->
  StronglySorted class_lt (cs1 :: css) ->
  let g := group ordr last rest cs1 css in
  concat g = rev rest ++ cs1 ++ concat css /\
  Forall equiv_class g /\ StronglySorted class_lt g.
Proof.
  induction rest as [|r1 rr IH]; intros last cs1 css HS Hl Hc Hcs HL; cbn [group].
  - cbn. auto.
  - inversion HS as [|? ? HS' HF]; subst. inversion HF as [|? ? Hr1 HF']; subst.
    assert (Hne : ordr r1 last <> Eq ->
       let g := group ordr r1 rr [r1] (cs1 :: css) in
       concat g = rev (r1 :: rr) ++ cs1 ++ concat css /\ Forall equiv_class g /\ StronglySorted class_lt g).
    { intros Hn. edestruct (IH r1 [r1] (cs1 :: css)) as (H1 & H2 & H3); auto.
      - now left.
      - split; [discriminate|]. intros x y [<-|[]] [<-|[]]. now apply tp_refl.
      - constructor; [assumption|].
        assert (Hlt : ordr r1 last = Lt) by (unfold ord_le in Hr1; destruct (ordr r1 last); congruence).
        assert (Hc1 : class_lt [r1] cs1).
        { intros x y [<-|[]] Hy. eapply tp_lt_le_trans; [assumption|exact Hlt|].
          unfold ord_le. rewrite (proj2 Hc last y Hl Hy). discriminate. }
        constructor; [assumption|].
        inversion HL as [|? ? HL1 HL2]; subst. eapply Forall_impl; [|exact HL2].
        intros c Hcc x y Hx Hy. eapply lt_trans; [apply (Hc1 x last Hx Hl)|]. now apply Hcc.
      - cbn zeta. rewrite H1. cbn [rev concat]. rewrite <- !app_assoc. auto. }
    destruct (ordr r1 last) eqn:E; try (apply Hne; congruence).
    edestruct (IH r1 (r1 :: cs1) css) as (H1 & H2 & H3); auto.
    + now left.
    + split; [discriminate|]. intros x y Hx Hy.
      assert (HE : forall z, In z (r1 :: cs1) -> ordr last z = Eq).
      { intros z [<-|Hz]; [now apply tp_eq_sym|]. now apply (proj2 Hc). }
      eapply tp_eq_trans; [assumption| |apply HE, Hy]. apply tp_eq_sym; [assumption|]. now apply HE.
    + inversion HL as [|? ? HL1 HL2]; subst. constructor; [assumption|].
      eapply Forall_impl; [|exact HL2]. intros c Hcc x y [<-|Hx] Hy; [|now apply Hcc].
      eapply tp_le_lt_trans; [assumption| |apply (Hcc last y Hl Hy)]. unfold ord_le. rewrite E. discriminate.
    + cbn zeta. rewrite H1. cbn [rev app]. rewrite <- app_assoc. auto.
Qed.

Lemma sortd_ge_rev l : sortd l -> StronglySorted ge (rev l).
Proof.
  induction l as [|x l IH]; intros H; [constructor|]. inversion H; subst.
  cbn [rev].
  assert (G : forall l x, StronglySorted ge l -> Forall (le x) l -> StronglySorted ge (l ++ [x])).
  { clear. induction l as [|y l IH]; intros x H HF; cbn; [repeat constructor|].
    inversion H; inversion HF; subst. constructor; [auto|]. apply Forall_app. split; auto. }
  apply G; auto. apply Forall_rev. assumption.
Qed.

Theorem eqclasses_spec xs : exists cs, eqclasses ordr xs = Ret cs /\
  Permutation xs (concat cs) /\ Forall equiv_class cs /\ StronglySorted class_lt cs.
Proof.
  unfold eqclasses. destruct (sort_spec xs) as (l & -> & HP & HS). cbn [bind].
  destruct (rev l) as [|x1 xr] eqn:E.
  - exists []. split; [reflexivity|]. apply (f_equal (@rev A)) in E. rewrite rev_involutive in E.
    cbn in E. subst. repeat split; auto; constructor.
  - destruct (group_spec xr x1 [x1] []) as (H1 & H2 & H3).
    + rewrite <- E. now apply sortd_ge_rev.
    + now left.
    + split; [discriminate|]. intros x y [<-|[]] [<-|[]]. now apply tp_refl.
    + constructor.
    + repeat constructor.
    + exists (group ordr x1 xr [x1] []). split; [reflexivity|]. split; [|auto].
      rewrite H1. cbn [concat]. rewrite app_nil_r. 
      apply (f_equal (@rev A)) in E. rewrite rev_involutive in E. cbn [rev] in E. rewrite <- E. assumption.
Qed.

End P.
