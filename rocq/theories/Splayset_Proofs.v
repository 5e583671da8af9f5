(** Proofs about Splayset. *)
From Coq Require Import Sorting.Sorted Sorting.Permutation.
From Verif Require Import Base OrderSpec FinMap SetSpec Splaytree_Model Splaytree_Proofs Splayset_Model.

Section Sets.
Context {A : Type} (c : A -> A -> comparison) (TP : total_preorder c).
Notation tree := (splay_tree A).
Notation sorted := (StronglySorted (fun x y => c x y = Lt)).
Notation slookup := (slookup (fun x : A => x) c).
Notation sins := (sins (fun x : A => x) c).
Notation sdel := (sdel (fun x : A => x) c).
Notation klt := (klt (fun x : A => x) c).
Notation kgt := (kgt (fun x : A => x) c).

Lemma splay_at k (t : tree) : sorted (elements t) ->
  (t = SplayNil /\ splay (cmpf c k) t = (Gt, SplayNil)) \/
  exists e L R, splay (cmpf c k) t = (c e k, SplayObj e L R) /\
    elements t = elements L ++ e :: elements R /\ klt (elements L) k /\ kgt k (elements R).
Proof. intros S. exact (splay_sorted (fun x : A => x) c TP k t S). Qed.
Lemma slookup_root k e l r : klt l k -> kgt k r ->
  slookup k (l ++ e :: r) = match c e k with Eq => Some e | _ => None end.
Proof.
  intros HL HR. rewrite (slookup_klt (fun x : A => x) c TP) by assumption. cbn [FinMap.slookup].
  rewrite (tp_sym c TP e k). destruct (c e k); cbn [CompOpp]; auto. now apply slookup_kgt.
Qed.
Lemma sins_root k e l r : klt l k -> kgt k r -> sins k (l ++ e :: r) =
  match c e k with
  | Lt => (l ++ [e]) ++ k :: r | Eq => l ++ k :: r | Gt => l ++ k :: e :: r end.
Proof.
  intros HL HR. rewrite (sins_klt (fun x : A => x) c TP) by assumption. cbn [FinMap.sins]. rewrite (tp_sym c TP e k).
  destruct (c e k); cbn [CompOpp]; [reflexivity| |reflexivity].
  rewrite <- app_assoc. cbn [List.app]. do 2 f_equal. now apply (sins_kgt (fun x : A => x) c).
Qed.

Definition len (t : tree) : Z := Z.of_nat (length (elements t)).

Lemma insert_spec v n t : sorted (elements t) -> n = len t ->
  exists t', insert c v (n, t) = (len t', t') /\ elements t' = sins v (elements t).
Proof.
  intros S N. unfold insert. destruct (splay_at v t S) as [(-> & E)|(e & l & r & E & EL & HL & HR)]; rewrite E.
  - exists (SplayObj v SplayNil SplayNil). split; reflexivity.
  - subst n. unfold len. rewrite EL, sins_root by assumption.
    destruct (c e v);
      [exists (SplayObj v l r)|exists (SplayObj v (SplayObj e l SplayNil) r)|exists (SplayObj v l (SplayObj e SplayNil r))];
      (split; [|cbn [elements]; rewrite ?app_nil_r; reflexivity]); f_equal; cbn [elements];
      rewrite !app_length; cbn [length]; rewrite ?app_length; cbn [length]; lia.
Qed.
Lemma inserts_spec vs : forall n t, sorted (elements t) -> n = len t ->
  exists t', fold_left (fun nt v => insert c v nt) vs (n, t) = (len t', t') /\
    elements t' = fold_left (fun l v => sins v l) vs (elements t).
Proof.
  induction vs as [|v vs IH]; intros n t S N; [exists t; subst; auto|]. cbn [fold_left].
  destruct (insert_spec v n t S N) as (t' & E & EL). rewrite E, <- EL. apply IH; [|reflexivity].
  rewrite EL. now apply (sins_sorted (fun x : A => x) c TP).
Qed.

Lemma mbr_spec x (t : tree) : sorted (elements t) -> mbr c x t = set_mem c x (elements t).
Proof.
  induction t as [v l IHl r IHr|]; intros S; [|reflexivity]. cbn [mbr elements] in *.
  rewrite (mem_mid c TP x _ _ _ S). apply (sorted_mid c TP) in S as (S1 & S2 & _). destruct (c x v); auto.
Qed.
Lemma isIn_spec (t' t : tree) : sorted (elements t') -> isIn c t' t = set_subset c (elements t) (elements t').
Proof.
  intros S. assert (H : forall v l r, isIn c t' (SplayObj v l r) = mbr c v t' && (isIn c t' l && isIn c t' r)).
  { intros v l r. destruct l, r; cbn [isIn]; rewrite ?andb_true_r; reflexivity. }
  unfold set_subset. induction t as [v l IHl r IHr|]; [|reflexivity].
  rewrite H, IHl, IHr, mbr_spec by assumption. cbn [elements]. rewrite forallb_app. cbn [forallb].
  destruct (set_mem c v (elements t')), (forallb (fun x => set_mem c x (elements t')) (elements l)); reflexivity.
Qed.

(** what split returns *)
Lemma split_spec v (t : tree) : sorted (elements t) ->
  exists o L R, split c v t = (o, L, R) /\
    elements t = elements L ++ match o with Some x => [x] | None => [] end ++ elements R /\
    (forall x, In x (elements L) -> c x v = Lt) /\ (forall x, In x (elements R) -> c v x = Lt) /\
    (forall x, o = Some x -> c x v = Eq).
Proof.
  intros S. unfold split. destruct (splay_at v t S) as [(-> & E)|(e & l & r & E & EL & HL & HR)]; rewrite E.
  - do 3 eexists. split; [reflexivity|]. cbn. repeat split; auto; try easy.
  - unfold FinMap.klt, FinMap.kgt in *. rewrite Forall_forall in HL, HR.
    destruct (c e v) eqn:Ee; do 3 eexists; (split; [reflexivity|]); cbn [elements].
    + repeat split; auto. intros x [= <-]. assumption.
    + split; [now rewrite <- app_assoc|]. repeat split; auto; [|discriminate].
      intros x Hx. apply in_app_or in Hx as [Hx|[<-|[]]]; auto.
    + split; [assumption|]. repeat split; auto; [|discriminate].
      intros x [<-|Hx]; auto. now apply (tp_gt_lt c TP).
Qed.
Lemma split_sorted (l o r : list A) : sorted (l ++ o ++ r) -> sorted l /\ sorted r.
Proof. intros H. apply ss_app in H as (H1 & H2 & _). apply ss_app in H2 as (_ & H3 & _). auto. Qed.
Lemma count_spec (t : tree) : count t = len t.
Proof.
  assert (G : forall (t : tree) n, cnt t n = n + len t).
  { induction t0 as [v l IHl r IHr|]; intros n; [|unfold len; cbn; lia]. cbn [cnt]. rewrite IHl, IHr. unfold len.
    cbn [elements]. rewrite app_length. cbn [length]. lia. }
  unfold count. rewrite G. lia.
Qed.
Lemma filter_mem_l l1 l v r : sorted (l ++ v :: r) -> (forall x, In x l1 -> c x v = Lt) ->
  filter (fun x => set_mem c x (l ++ v :: r)) l1 = filter (fun x => set_mem c x l) l1.
Proof. intros S H. apply filter_ext_In. intros x Hx. now rewrite (mem_mid c TP x _ _ _ S), (H x Hx). Qed.
Lemma filter_mem_r l1 l v r : sorted (l ++ v :: r) -> (forall x, In x l1 -> c v x = Lt) ->
  filter (fun x => set_mem c x (l ++ v :: r)) l1 = filter (fun x => set_mem c x r) l1.
Proof. intros S H. apply filter_ext_In. intros x Hx. rewrite (mem_mid c TP x _ _ _ S).
  now rewrite (proj2 (tp_gt_lt c TP x v) (H x Hx)). Qed.
Lemma filter_nmem_l l1 l v r : sorted (l ++ v :: r) -> (forall x, In x l1 -> c x v = Lt) ->
  filter (fun x => negb (set_mem c x (l ++ v :: r))) l1 = filter (fun x => negb (set_mem c x l)) l1.
Proof. intros S H. apply filter_ext_In. intros x Hx. now rewrite (mem_mid c TP x _ _ _ S), (H x Hx). Qed.
Lemma filter_nmem_r l1 l v r : sorted (l ++ v :: r) -> (forall x, In x l1 -> c v x = Lt) ->
  filter (fun x => negb (set_mem c x (l ++ v :: r))) l1 = filter (fun x => negb (set_mem c x r)) l1.
Proof. intros S H. apply filter_ext_In. intros x Hx. rewrite (mem_mid c TP x _ _ _ S).
  now rewrite (proj2 (tp_gt_lt c TP x v) (H x Hx)). Qed.

Lemma inter_spec (t2 : tree) : forall s, sorted (elements s) -> sorted (elements t2) ->
  exists t', inter c s t2 = (t', len t') /\ elements t' = set_inter c (elements s) (elements t2).
Proof.
  induction t2 as [v l IHl r IHr|]; intros s Ss S2.
  - destruct s as [sv sl sr|] eqn:Es; [|exists SplayNil; split; reflexivity]. rewrite <- Es in *.
    replace (inter c s (SplayObj v l r)) with
      (match split c v s with
       | (Some v, l0, r0) =>
         let '(l', lcnt) := inter c l0 l in let '(r', rcnt) := inter c r0 r in (SplayObj v l' r', lcnt + rcnt + 1)
       | (_, l0, r0) => let '(l', lcnt) := inter c l0 l in let '(r', rcnt) := inter c r0 r in (join l' r', lcnt + rcnt)
       end) by (rewrite Es; reflexivity).
    destruct (split_spec v s Ss) as (o & L & R & E & EL & HL & HR & Ho). rewrite E.
    rewrite EL in Ss. apply split_sorted in Ss as [SL SR].
    pose proof S2 as S2'. cbn [elements] in S2'. pose proof S2' as S3. apply (sorted_mid c TP) in S3 as (Sl & Sr & _).
    destruct (IHl L SL Sl) as (l' & El & Ll). destruct (IHr R SR Sr) as (r' & Er & Lr). rewrite El, Er.
    cbn [elements]. rewrite EL, set_inter_eq, !filter_app, (filter_mem_l _ _ _ _ S2' HL), (filter_mem_r _ _ _ _ S2' HR).
    rewrite <- !set_inter_eq, <- Ll, <- Lr. destruct o as [x|].
    + eexists. split; [f_equal; unfold len; cbn [elements]; rewrite app_length; cbn [length]; lia|].
      cbn [elements]. now rewrite set_inter_eq, filter_cons, (mem_mid c TP x _ _ _ S2'), (Ho x eq_refl).
    + eexists. split; [f_equal; unfold len; rewrite join_spec, app_length; lia|]. now rewrite join_spec.
  - exists SplayNil. split; [now destruct s|]. symmetry. apply set_inter_nil_r.
Qed.
Lemma diff_spec (t2 : tree) : forall s, sorted (elements s) -> sorted (elements t2) ->
  exists t', diff c s t2 = (t', len t') /\ elements t' = set_diff c (elements s) (elements t2).
Proof.
  induction t2 as [v l IHl r IHr|]; intros s Ss S2.
  - destruct s as [sv sl sr|] eqn:Es; [|exists SplayNil; split; reflexivity]. rewrite <- Es in *.
    replace (diff c s (SplayObj v l r)) with
      (let '(_, l0, r0) := split c v s in
       let '(l', lcnt) := diff c l0 l in let '(r', rcnt) := diff c r0 r in (join l' r', lcnt + rcnt))
      by (rewrite Es; reflexivity).
    destruct (split_spec v s Ss) as (o & L & R & E & EL & HL & HR & Ho). rewrite E.
    rewrite EL in Ss. apply split_sorted in Ss as [SL SR].
    pose proof S2 as S2'. cbn [elements] in S2'. pose proof S2' as S3. apply (sorted_mid c TP) in S3 as (Sl & Sr & _).
    destruct (IHl L SL Sl) as (l' & El & Ll). destruct (IHr R SR Sr) as (r' & Er & Lr). rewrite El, Er.
    cbn [elements]. rewrite EL, set_diff_eq, !filter_app, (filter_nmem_l _ _ _ _ S2' HL), (filter_nmem_r _ _ _ _ S2' HR).
    rewrite <- !set_diff_eq, <- Ll, <- Lr. eexists. split; [f_equal; unfold len; rewrite join_spec, app_length; lia|].
    rewrite join_spec. destruct o as [x|]; [|reflexivity].
    now rewrite set_diff_eq, filter_cons, (mem_mid c TP x _ _ _ S2'), (Ho x eq_refl).
  - exists s. change (elements (SplayNil : tree)) with (@nil A). rewrite set_diff_nil_r. split; [|reflexivity]. destruct s; cbn [diff]; [now rewrite count_spec|reflexivity].
Qed.
Lemma filter_lt_split v (L R : list A) o : (forall x, In x L -> c x v = Lt) -> (forall x, In x R -> c v x = Lt) ->
  (forall x, o = Some x -> c x v = Eq) ->
  filter (lt_ c v) (L ++ match o with Some x => [x] | None => [] end ++ R) = L /\
  filter (gt_ c v) (L ++ match o with Some x => [x] | None => [] end ++ R) = R.
Proof.
  intros HL HR Ho. rewrite !filter_app.
  assert (M : filter (lt_ c v) (match o with Some x => [x] | None => [] end) = [] /\
              filter (gt_ c v) (match o with Some x => [x] | None => [] end) = []).
  { destruct o as [x|]; [|auto]. cbn [filter]. unfold lt_, gt_. now rewrite (Ho x eq_refl). }
  destruct M as [-> ->]. cbn [List.app].
  rewrite (filter_all (lt_ c v) L), (filter_all (gt_ c v) R).
  - rewrite (proj2 (filter_nil_iff (lt_ c v) R)), (proj2 (filter_nil_iff (gt_ c v) L)); [now rewrite app_nil_r| |].
    + intros x Hx. unfold gt_. now rewrite (HL x Hx).
    + intros x Hx. unfold lt_. now rewrite (proj2 (tp_gt_lt c TP x v) (HR x Hx)).
  - intros x Hx. apply (gt_iff c TP). auto.
  - intros x Hx. apply lt_iff. auto.
Qed.
Lemma uni_spec (t2 : tree) : forall s, sorted (elements s) -> sorted (elements t2) ->
  exists t', uni c s t2 = (t', len t') /\ elements t' = smerge c (elements t2) (elements s).
Proof.
  induction t2 as [v l IHl r IHr|]; intros s Ss S2.
  - destruct s as [sv sl sr|] eqn:Es.
    2:{ exists (SplayObj v l r). cbn [uni]. rewrite count_spec. split; [reflexivity|].
        change (elements (SplayNil : tree)) with (@nil A). now rewrite smerge_nil_r. }
    rewrite <- Es in *.
    replace (uni c s (SplayObj v l r)) with
      (let '(_, l0, r0) := split c v s in
       let '(l', lcnt) := uni c l0 l in let '(r', rcnt) := uni c r0 r in (SplayObj v l' r', lcnt + rcnt + 1))
      by (rewrite Es; reflexivity).
    destruct (split_spec v s Ss) as (o & L & R & E & EL & HL & HR & Ho). rewrite E.
    pose proof Ss as Ss'. rewrite EL in Ss'. apply split_sorted in Ss' as [SL SR].
    pose proof S2 as S2'. cbn [elements] in S2'. pose proof S2' as S3. apply (sorted_mid c TP) in S3 as (Sl & Sr & _).
    destruct (IHl L SL Sl) as (l' & El & Ll). destruct (IHr R SR Sr) as (r' & Er & Lr). rewrite El, Er.
    cbn [elements]. rewrite (smerge_mid c TP _ _ _ _ S2' Ss).
    destruct (filter_lt_split v (elements L) (elements R) o HL HR Ho) as [F1 F2]. rewrite EL, F1, F2, <- Ll, <- Lr.
    eexists. split; [f_equal; unfold len; cbn [elements]; rewrite app_length; cbn [length]; lia|]. reflexivity.
  - exists s. split; [|reflexivity]. destruct s; cbn [uni]; now rewrite count_spec.
Qed.
Lemma ex_spec p (t : tree) :
  match ex p t with
  | Some x => In x (elements t) /\ p x = true
  | None => forall x, In x (elements t) -> p x = false
  end.
Proof.
  induction t as [v l IHl r IHr|]; [|intros x []]. cbn [ex elements]. destruct (p v) eqn:Pv.
  - split; [|assumption]. apply in_or_app. right. now left.
  - destruct (ex p l) as [x|].
    + destruct IHl. split; [|assumption]. apply in_or_app. now left.
    + destruct (ex p r) as [x|].
      * destruct IHr. split; [|assumption]. apply in_or_app. right. now right.
      * intros x Hx. apply in_app_or in Hx as [Hx|[<-|Hx]]; auto.
Qed.

(** *** sets in a store *)
Definition rep (st : store A) (d : set) (s : list A) : Prop :=
  exists t, deref st (root d) = Ret t /\ set_lists c (elements t) s /\ nobj d = len t.

Lemma rep_le st st' d s : st_le st st' -> rep st d s -> rep st' d s.
Proof.
  intros H (t & D & L & N). destruct (H _ _ D) as (t' & D' & E). exists t'. unfold len. rewrite E. auto.
Qed.
Lemma rep_perm st d s s' : rep st d s -> Permutation s s' -> rep st d s'.
Proof.
  intros (t & D & [S P] & N) P'. exists t. split; [assumption|]. split; [|assumption].
  split; [assumption|]. now transitivity s.
Qed.
Lemma rep_new st t s : set_lists c (elements t) s -> rep (st ++ [t]) (OS (length st) (len t)) s.
Proof. intros L. exists t. cbn [root nobj]. rewrite deref_new. auto. Qed.
Lemma rep_len st d s : rep st d s -> nobj d = Z.of_nat (length s).
Proof. intros (t & D & L & N). rewrite N. unfold len. now rewrite (set_lists_length _ _ _ L). Qed.
Lemma rep_zero st d s : rep st d s -> (nobj d =? 0) = true -> s = [].
Proof. intros R Z. apply rep_len in R. destruct s; [reflexivity|]. cbn [length] in R. lia. Qed.

Lemma empty_spec st : exists d st', empty st = (Ret d, st') /\ st_le st st' /\ rep st' d [].
Proof.
  eexists. eexists. split; [reflexivity|]. split; [apply new_le|]. apply (rep_new st SplayNil). split; constructor.
Qed.
Lemma singleton_spec st x : exists d st', singleton x st = (Ret d, st') /\ st_le st st' /\ rep st' d [x].
Proof.
  eexists. eexists. split; [reflexivity|]. split; [apply new_le|]. apply (rep_new st (SplayObj x SplayNil SplayNil)).
  split; repeat constructor.
Qed.
Lemma add_spec st d s x : rep st d s ->
  exists d' st', add c d x st = (Ret d', st') /\ st_le st st' /\ rep st' d' (set_replace c x s).
Proof.
  intros (t & D & L & N). unfold add, bindc, get. rewrite D.
  destruct (insert_spec x (nobj d) t (proj1 L) N) as (t' & E & EL). rewrite E.
  eexists. eexists. split; [reflexivity|]. split; [apply new_le|]. apply rep_new. rewrite EL. now apply set_lists_replace.
Qed.
Lemma addList_spec st d s xs : rep st d s ->
  exists d' st', addList c d xs st = (Ret d', st') /\ st_le st st' /\
    rep st' d' (fold_left (fun s x => set_replace c x s) xs s).
Proof.
  intros (t & D & L & N). unfold addList, bindc, get. rewrite D.
  destruct (inserts_spec xs (nobj d) t (proj1 L) N) as (t' & E & EL). rewrite E.
  eexists. eexists. split; [reflexivity|]. split; [apply new_le|]. apply rep_new. rewrite EL.
  clear E EL N D t'. revert s L. generalize (elements t). clear t.
  induction xs as [|x xs IH]; intros l s L; [assumption|]. cbn [fold_left]. apply IH. now apply set_lists_replace.
Qed.
Lemma peek_spec st d s k : rep st d s ->
  exists st', peek c d k st = (Ret (am_find (fun x => x) c k s), st') /\ st_le st st'.
Proof.
  intros (t & D & L & N). unfold peek, bindc, get. rewrite D. rewrite <- (lists_find (fun x : A => x) c TP k _ _ L).
  destruct (splay_at k t (proj1 L)) as [(-> & E)|(e & l & r & E & EL & HL & HR)]; rewrite E.
  - exists st. split; [reflexivity|apply st_le_refl].
  - rewrite EL, slookup_root by assumption. exists (assign st (root d) (SplayObj e l r)).
    split; [|now apply put_le with t]. unfold put, ret. destruct (c e k); reflexivity.
Qed.
Lemma member_spec st d s k : rep st d s ->
  exists st', member c d k st = (Ret (set_mem c k s), st') /\ st_le st st'.
Proof.
  intros R. destruct (peek_spec st d s k R) as (st' & E & L). exists st'. split; [|assumption].
  unfold member, bindc. rewrite E, set_mem_find. now destruct (am_find (fun x => x) c k s).
Qed.
Lemma retrieve_spec st d s k : rep st d s ->
  exists st', retrieve c d k st =
    (match am_find (fun x => x) c k s with Some y => Ret y | None => Raise NotFound end, st') /\ st_le st st'.
Proof.
  intros R. destruct (peek_spec st d s k R) as (st' & E & L). exists st'. split; [|assumption].
  unfold retrieve, bindc. rewrite E. now destruct (am_find (fun x => x) c k s).
Qed.
Lemma delete_spec st d s k : rep st d s ->
  exists st', st_le st st' /\
  if set_mem c k s then exists d', delete c d k st = (Ret d', st') /\ rep st' d' (set_delete c k s)
  else delete c d k st = (Raise NotFound, st').
Proof.
  intros (t & D & L & N). unfold delete, bindc, get. rewrite D.
  pose proof (set_lists_delete c TP k _ _ L) as LI. rewrite (set_mem_slookup c TP k _ _ L).
  destruct (splay_at k t (proj1 L)) as [(-> & E)|(e & l & r & E & EL & HL & HR)]; rewrite E.
  - exists st. split; [apply st_le_refl|]. reflexivity.
  - rewrite EL in LI |- *. rewrite slookup_root by assumption.
    rewrite (sdel_klt (fun x : A => x) c TP) in LI by assumption. cbn [FinMap.sdel] in LI.
    rewrite (tp_sym c TP e k) in LI. unfold len in N. rewrite EL, app_length in N. cbn [length] in N.
    destruct (c e k) eqn:Ek; cbn [CompOpp] in LI; cbn [new newref ret].
    + eexists. split; [|eexists; split; [reflexivity|]]; [apply new_le|].
      replace (nobj d - 1) with (len (join l r)) by (unfold len; rewrite join_spec, app_length; lia).
      apply rep_new. now rewrite join_spec.
    + eexists. split; [|reflexivity]. now apply put_le with t.
    + eexists. split; [|reflexivity]. now apply put_le with t.
Qed.
Lemma rep_distinct st d s : rep st d s -> distinct_keys (fun x => x) c s.
Proof. intros (t & D & L & N). eapply set_lists_distinct; eauto. Qed.
Lemma isSubset_spec st d1 s1 d2 s2 : rep st d1 s1 -> rep st d2 s2 ->
  isSubset c d1 d2 st = (Ret (set_subset c s1 s2), st).
Proof.
  intros R1 R2. unfold isSubset. pose proof (rep_len _ _ _ R1) as N1. pose proof (rep_len _ _ _ R2) as N2.
  destruct (nobj d1 <=? nobj d2) eqn:E.
  - destruct R1 as (t1 & D1 & L1 & _), R2 as (t2 & D2 & L2 & _). unfold bindc, get, ret. rewrite D1, D2.
    rewrite isIn_spec by apply L2. do 2 f_equal. apply (set_subset_perm c); [apply L1|apply L2].
  - unfold ret. do 2 f_equal. destruct (set_subset c s1 s2) eqn:Es; [|reflexivity].
    apply (subset_length c TP) in Es; [lia|eapply rep_distinct; eauto|eapply rep_distinct; eauto].
Qed.
Lemma equal_spec st d1 s1 d2 s2 : rep st d1 s1 -> rep st d2 s2 ->
  equal c d1 d2 st = (Ret (set_equal c s1 s2), st).
Proof.
  intros R1 R2. unfold equal, set_equal. pose proof (rep_len _ _ _ R1) as N1. pose proof (rep_len _ _ _ R2) as N2.
  pose proof (rep_distinct _ _ _ R1) as Q1. pose proof (rep_distinct _ _ _ R2) as Q2.
  destruct (nobj d1 =? nobj d2) eqn:E.
  - destruct R1 as (t1 & D1 & L1 & _), R2 as (t2 & D2 & L2 & _). unfold bindc, get, ret. rewrite D1, D2.
    rewrite isIn_spec by apply L2. do 2 f_equal.
    rewrite (set_subset_perm c (elements t1) s1 (elements t2) s2) by (apply L1 || apply L2).
    destruct (set_subset c s1 s2) eqn:Es; [|reflexivity]. cbn [andb]. symmetry.
    apply (subset_equal_length c TP); auto. lia.
  - unfold ret. do 2 f_equal. destruct (set_subset c s1 s2) eqn:Es; [|reflexivity]. cbn [andb].
    destruct (set_subset c s2 s1) eqn:Es'; [|reflexivity]. apply (subset_length c TP) in Es, Es'; auto. lia.
Qed.
Lemma union_spec st d1 s1 d2 s2 : rep st d1 s1 -> rep st d2 s2 ->
  exists d st', union c d1 d2 st = (Ret d, st') /\ st_le st st' /\ rep st' d (set_union c s2 s1).
Proof.
  intros R1 R2. unfold union. destruct (nobj d1 =? 0) eqn:E1; [|destruct (nobj d2 =? 0) eqn:E2].
  - exists d2, st. split; [reflexivity|]. split; [apply st_le_refl|]. rewrite (rep_zero _ _ _ R1 E1).
    unfold set_union. cbn [filter]. now rewrite app_nil_r.
  - exists d1, st. split; [reflexivity|]. split; [apply st_le_refl|]. rewrite (rep_zero _ _ _ R2 E2).
    unfold set_union. cbn [List.app]. now rewrite filter_all by reflexivity.
  - destruct R1 as (t1 & D1 & L1 & _), R2 as (t2 & D2 & L2 & _). unfold bindc, get. rewrite D1, D2.
    destruct (uni_spec t2 t1 (proj1 L1) (proj1 L2)) as (t' & E & EL). rewrite E.
    eexists. eexists. split; [reflexivity|]. split; [apply new_le|]. apply rep_new. rewrite EL.
    now apply set_lists_union.
Qed.
Lemma intersection_spec st d1 s1 d2 s2 : rep st d1 s1 -> rep st d2 s2 ->
  exists d st', intersection c d1 d2 st = (Ret d, st') /\ st_le st st' /\ rep st' d (set_inter c s1 s2).
Proof.
  intros R1 R2. unfold intersection. destruct (nobj d1 =? 0) eqn:E1; [|destruct (nobj d2 =? 0) eqn:E2].
  - exists d1, st. split; [reflexivity|]. split; [apply st_le_refl|]. assert (s1 = []) as -> by (eapply rep_zero; eauto). exact R1.
  - exists d2, st. split; [reflexivity|]. split; [apply st_le_refl|]. assert (s2 = []) as -> by (eapply rep_zero; eauto).
    now rewrite set_inter_nil_r.
  - destruct R1 as (t1 & D1 & L1 & _), R2 as (t2 & D2 & L2 & _). unfold bindc, get. rewrite D1, D2.
    destruct (inter_spec t2 t1 (proj1 L1) (proj1 L2)) as (t' & E & EL). rewrite E.
    eexists. eexists. split; [reflexivity|]. split; [apply new_le|]. apply rep_new. rewrite EL.
    now apply set_lists_inter.
Qed.
Lemma difference_spec st d1 s1 d2 s2 : rep st d1 s1 -> rep st d2 s2 ->
  exists d st', difference c d1 d2 st = (Ret d, st') /\ st_le st st' /\ rep st' d (set_diff c s1 s2).
Proof.
  intros R1 R2. unfold difference. destruct (nobj d1 =? 0) eqn:E1; [|destruct (nobj d2 =? 0) eqn:E2].
  - exists d1, st. split; [reflexivity|]. split; [apply st_le_refl|]. assert (s1 = []) as -> by (eapply rep_zero; eauto). exact R1.
  - exists d1, st. split; [reflexivity|]. split; [apply st_le_refl|]. assert (s2 = []) as -> by (eapply rep_zero; eauto).
    now rewrite set_diff_nil_r.
  - destruct R1 as (t1 & D1 & L1 & _), R2 as (t2 & D2 & L2 & _). unfold bindc, get. rewrite D1, D2.
    destruct (diff_spec t2 t1 (proj1 L1) (proj1 L2)) as (t' & E & EL). rewrite E.
    eexists. eexists. split; [reflexivity|]. split; [apply new_le|]. apply rep_new. rewrite EL.
    now apply set_lists_diff.
Qed.

Lemma list_apply_spec (t : tree) res : list_apply t res = elements t ++ res.
Proof.
  revert res. induction t as [v l IHl r IHr|]; intros res; [|reflexivity]. cbn [list_apply elements].
  rewrite IHl, IHr, <- app_assoc. reflexivity.
Qed.
Lemma app_apply_spec {S} (f : A -> S -> S) (t : tree) s :
  app_apply f t s = fold_left (fun s e => f e s) (elements t) s.
Proof.
  revert s. induction t as [v l IHl r IHr|]; intros s; [|reflexivity]. cbn [app_apply elements].
  rewrite IHl, IHr, fold_left_app. reflexivity.
Qed.
Lemma revapp_apply_spec {S} (f : A -> S -> S) (t : tree) s :
  revapp_apply f t s = fold_left (fun s e => f e s) (rev (elements t)) s.
Proof.
  revert s. induction t as [v l IHl r IHr|]; intros s; [|reflexivity]. cbn [revapp_apply elements].
  rewrite IHl, IHr, rev_app_distr, fold_left_app. cbn [rev]. rewrite fold_left_app. reflexivity.
Qed.
Lemma foldr_apply_spec {B} (f : A -> B -> B) (t : tree) b :
  foldr_apply f t b = fold_right f b (elements t).
Proof.
  revert b. induction t as [v l IHl r IHr|]; intros b; [|reflexivity]. cbn [foldr_apply elements].
  rewrite IHl, IHr, fold_right_app. reflexivity.
Qed.
Lemma foldl_apply_spec {B} (f : A -> B -> B) (t : tree) b :
  foldl_apply f t b = fold_left (fun acc e => f e acc) (elements t) b.
Proof.
  revert b. induction t as [v l IHl r IHr|]; intros b; [|reflexivity]. cbn [foldl_apply elements].
  rewrite IHl, IHr, fold_left_app. reflexivity.
Qed.
End Sets.
