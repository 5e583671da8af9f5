(** Property C27: Rbset implements finite sets with balanced trees. *)
From Coq Require Import Sorting.Sorted Sorting.Permutation.
From Verif Require Import Base OrderSpec FinMap SetSpec Rbset_Model Rbset_Proofs.

(** Intervals, as documented in Rbset.sig:
    From e1 = the e with cmp(e1,e) <> GREATER, To e2 = the e with cmp(e,e2) = LESS. *)
Definition in_interval {A} (c : A -> A -> comparison) (i : intv A) (e : A) : Prop :=
  match i with
  | All => True
  | From e1 => c e1 e <> Gt
  | To e2 => c e e2 = Lt
  | FromTo e1 e2 => c e1 e <> Gt /\ c e e2 = Lt
  end.

Lemma in_intv_iff {A} (c : A -> A -> comparison) i e : in_intv c i e = true <-> in_interval c i e.
Proof.
  destruct i as [|i|i|i i0]; cbn; unfold ge_from, lt_to.
  - tauto.
  - destruct (c i e); split; congruence.
  - destruct (c e i); split; congruence.
  - rewrite andb_true_iff. destruct (c i e), (c e i0); intuition congruence.
Qed.

(** [built c d s]: some client program, using only operations of the signature, can build the
    concrete set [d], and the same operations on abstract sets (lists without EQUAL items) give [s].
    An abstract set may be listed in any order. *)
Inductive built : forall A, (A -> A -> comparison) -> set A -> list A -> Prop :=
| b_empty A c : total_preorder c -> built A c empty []
| b_singleton A c x : total_preorder c -> built A c (singleton x) [x]
| b_add A c d s x : built A c d s -> built A c (add c d x) (set_add c x s)
| b_addList A c d s xs : built A c d s ->
    built A c (addList c d xs) (fold_left (fun s x => set_add c x s) xs s)
| b_delete A c d s x d' : built A c d s -> delete c d x = Ret d' -> built A c d' (set_delete c x s)
| b_union A c d1 s1 d2 s2 d : built A c d1 s1 -> built A c d2 s2 -> union c d1 d2 = Ret d ->
    built A c d (set_union c s1 s2)
| b_inter A c d1 s1 d2 s2 d : built A c d1 s1 -> built A c d2 s2 -> intersection c d1 d2 = Ret d ->
    built A c d (set_inter c s1 s2)
| b_diff A c d1 s1 d2 s2 d : built A c d1 s1 -> built A c d2 s2 -> difference c d1 d2 = Ret d ->
    built A c d (set_diff c s1 s2)
| b_subset A c d s i s' : built A c d s ->
    (forall p : A -> bool, (forall e, p e = true <-> in_interval c i e) -> s' = filter p s) ->
    built A c (subset c d i) s'
| b_map A B c c' (f : A -> B) d s l d' : built A c d s -> set_lists c l s -> total_preorder c' ->
    map f c' d = Ret d' -> built B c' d' (fold_left (fun r x => set_add c' (f x) r) l [])
| b_mapMono A B c c' (f : A -> B) d s l d' : built A c d s -> set_lists c l s -> total_preorder c' ->
    mapMono f c' d = Ret d' -> built B c' d' (List.map f l)
| b_order A c d s s' : built A c d s -> Permutation s s' -> built A c d s'.

Lemma sorted_lists_unique {A} (c : A -> A -> comparison) (TP : total_preorder c) l l' s :
  set_lists c l s -> set_lists c l' s -> l = l'.
Proof.
  intros [S1 P1] [S2 P2]. apply (sorted_unique (fun x : A => x) c TP); auto.
  etransitivity; [exact P1|now symmetry].
Qed.

Lemma mapMono_spec {A B} (f : A -> B) (c' : B -> B -> comparison) (TP' : total_preorder c') (d : set A) :
  (increasing c' (rev (List.map f (elements (fst d)))) /\
   exists d', mapMono f c' d = Ret d' /\ inv c' d' (rev (List.map f (elements (fst d))))) \/
  (~ increasing c' (rev (List.map f (elements (fst d)))) /\ mapMono f c' d = Raise NonMonotonic).
Proof.
  unfold mapMono. rewrite foldl_spec. cbn [bind].
  assert (E : forall l acc, fold_left (fun acc x => f x :: acc) l acc = rev (List.map f l) ++ acc).
  { induction l as [|x l IH]; intros acc; [reflexivity|]. cbn. rewrite IH. now rewrite <- app_assoc. }
  rewrite E, app_nil_r. destruct (Rbset_Model.sorted c' _) eqn:S.
  - left. apply (sorted_spec c' TP') in S. split; [assumption|]. eexists. split; [reflexivity|].
    now apply inv_fromSortedList.
  - right. split; [|reflexivity]. intros H. apply (sorted_spec c' TP') in H. congruence.
Qed.

Lemma built_inv A c d s : built A c d s -> total_preorder c /\ inv c d s.
Proof.
  induction 1 as [A c TP|A c x TP|A c d s x H [TP IH]|A c d s xs H [TP IH]|A c d s x d' H [TP IH] E
    |A c d1 s1 d2 s2 d H1 [TP IH1] H2 [_ IH2] E|A c d1 s1 d2 s2 d H1 [TP IH1] H2 [_ IH2] E
    |A c d1 s1 d2 s2 d H1 [TP IH1] H2 [_ IH2] E|A c d s i s' H [TP IH] Hs
    |A B c c' f d s l d' H [TP IH] L TP' E|A B c c' f d s l d' H [TP IH] L TP' E|A c d s s' H [TP IH] P];
    (split; [assumption|]).
  - apply inv_empty.
  - apply inv_singleton.
  - now apply inv_add.
  - now apply inv_addList.
  - pose proof (inv_delete c TP d s x IH) as D. destruct (set_mem c x s).
    + destruct D as (d2 & E2 & I2). rewrite E in E2. injection E2 as <-. assumption.
    + congruence.
  - destruct (inv_union c TP d1 s1 d2 s2 IH1 IH2) as (d3 & E3 & I3). rewrite E in E3. now injection E3 as <-.
  - destruct (inv_intersection c TP d1 s1 d2 s2 IH1 IH2) as (d3 & E3 & I3). rewrite E in E3. now injection E3 as <-.
  - destruct (inv_difference c TP d1 s1 d2 s2 IH1 IH2) as (d3 & E3 & I3). rewrite E in E3. now injection E3 as <-.
  - rewrite (Hs (in_intv c i) (in_intv_iff c i)). now apply inv_subset.
  - destruct (inv_map f c' TP' d) as (d2 & E2 & I2). rewrite E in E2. injection E2 as <-.
    assert (l = elements (fst d)) as -> by (eapply sorted_lists_unique; eauto; apply IH). assumption.
  - destruct (mapMono_spec f c' TP' d) as [(_ & d2 & E2 & I2)|(_ & E2)]; [|congruence].
    rewrite E in E2. injection E2 as <-.
    assert (l = elements (fst d)) as -> by (eapply sorted_lists_unique; eauto; apply IH).
    eapply inv_perm; [exact I2|]. symmetry. apply Permutation_rev.
  - eapply inv_perm; eauto.
Qed.

Definition zsum {A} (h : A -> Z) (l : list A) : Z := fold_right (fun x acc => h x + acc) 0 l.

Lemma hash_spec {A} (h : A -> Z) (d : set A) : (forall x, 0 <= h x < two63) ->
  hash h d = Ret (zsum h (elements (fst d)) mod two63).
Proof.
  intros Hh. unfold hash. rewrite foldl_spec. f_equal.
  assert (G : forall l a, fold_left (fun acc x => (h x + acc) mod two63) l (a mod two63) = (a + zsum h l) mod two63).
  { induction l as [|x l IH]; intros a; cbn [fold_left zsum fold_right]; [now rewrite Z.add_0_r|].
    rewrite Zplus_mod_idemp_r, IH. f_equal. unfold zsum. lia. }
  apply (G _ 0).
Qed.
Lemma zsum_perm {A} (h : A -> Z) l l' : Permutation l l' -> zsum h l = zsum h l'.
Proof. unfold zsum. induction 1; cbn [fold_right]; lia. Qed.

(** The observers of a single set. *)
Theorem C27_observers : forall A (c : A -> A -> comparison) d s, built A c d s ->
  numItems d = Z.of_nat (length s) /\
  (isEmpty d = true <-> s = []) /\
  (forall x, member c d x = set_mem c x s) /\
  (forall x, set_mem c x s = false -> delete c d x = Raise NotFound) /\
  (forall x, set_mem c x s = true -> exists d', delete c d x = Ret d') /\
  exists l, set_lists c l s /\ listItems d = Ret l /\
    min d = hd_error l /\ max d = hd_error (rev l) /\
    (forall p, find p d = Ret (List.find p l)) /\
    (forall i p, (forall e, p e = true <-> in_interval c i e) -> sublist c d i = filter p l) /\
    (forall h, (forall x, 0 <= h x < two63) -> hash h d = Ret (zsum h s mod two63)) /\
    (forall B (f : A -> B -> B) e, foldl f e d = Ret (fold_left (fun acc x => f x acc) l e)) /\
    (forall B (f : A -> B -> B) e, foldr f e d = Ret (fold_right f e l)) /\
    (forall S (f : A -> S -> S) st, app f d st = Ret (fold_left (fun st x => f x st) l st)) /\
    (forall S (f : A -> S -> S) st, revapp f d st = Ret (fold_left (fun st x => f x st) (rev l) st)).
Proof.
  intros A c d s H. apply built_inv in H as [TP H]. split; [apply H|].
  split. { rewrite (inv_isEmpty c d s H). destruct s; split; congruence. }
  split. { intros x. now apply inv_member. }
  split. { intros x Hx. pose proof (inv_delete c TP d s x H) as D. now rewrite Hx in D. }
  split. { intros x Hx. pose proof (inv_delete c TP d s x H) as D. rewrite Hx in D. destruct D as (d' & E & _). eauto. }
  exists (elements (fst d)). split; [apply H|]. split; [apply listItems_spec|].
  split; [apply min_spec|]. split; [apply max_spec|]. split; [intros; apply find_spec|].
  split. { intros i p Hp. rewrite (sublist_spec c TP d s i H). apply filter_ext. intros e.
    apply eq_true_iff_eq. rewrite in_intv_iff, Hp. reflexivity. }
  split. { intros h Hh. rewrite hash_spec by assumption. do 2 f_equal. apply zsum_perm. apply H. }
  split; [intros; apply foldl_spec|]. split; [intros; apply foldr_spec|].
  split; [intros; apply app_spec|intros; apply revapp_spec].
Qed.

(** The operations on two sets: they all succeed, and the comparisons answer as documented. *)
Theorem C27_binary : forall A (c : A -> A -> comparison) d1 s1 d2 s2, built A c d1 s1 -> built A c d2 s2 ->
  (exists d, union c d1 d2 = Ret d) /\
  (exists d, intersection c d1 d2 = Ret d) /\
  (exists d, difference c d1 d2 = Ret d) /\
  isSubset c d1 d2 = Ret (set_subset c s1 s2) /\
  equal c d1 d2 = Ret (set_equal c s1 s2) /\
  (forall l1 l2, set_lists c l1 s1 -> set_lists c l2 s2 -> compare_sets c d1 d2 = Ret (lex c l1 l2)) /\
  (compare_sets c d1 d2 = Ret Eq <-> set_equal c s1 s2 = true).
Proof.
  intros A c d1 s1 d2 s2 H1 H2. apply built_inv in H1 as [TP H1]. apply built_inv in H2 as [_ H2].
  destruct (inv_union c TP d1 s1 d2 s2 H1 H2) as (du & U & _).
  destruct (inv_intersection c TP d1 s1 d2 s2 H1 H2) as (di & I & _).
  destruct (inv_difference c TP d1 s1 d2 s2 H1 H2) as (dd & D & _).
  split; [eauto|]. split; [eauto|]. split; [eauto|].
  split; [now apply inv_isSubset|]. split; [now apply inv_equal|]. split.
  - intros l1 l2 L1 L2. rewrite (compare_sets_spec c d1 d2). do 2 f_equal; symmetry;
      eapply sorted_lists_unique; eauto; [apply H1|apply H2].
  - rewrite (compare_sets_spec c d1 d2).
    rewrite <- (set_equal_perm c (elements (fst d1)) s1 (elements (fst d2)) s2) by (apply H1 || apply H2).
    pose proof (inv_sorted c d1 s1 H1) as S1. pose proof (inv_sorted c d2 s2 H2) as S2.
    revert S1 S2. generalize (elements (fst d1)) (elements (fst d2)).
    induction l as [|x l IH]; intros [|y l'] S1 S2; try (cbn; split; congruence).
    cbn [lex]. rewrite (equal_cons c TP) by assumption.
    destruct (c x y); [|split; congruence|split; congruence]. apply IH; [now inversion S1|now inversion S2].
Qed.

(** Meaning of the abstract set operations in terms of membership. *)
Theorem C27_set_laws : forall A (c : A -> A -> comparison), total_preorder c -> forall s1 s2 x y,
  set_mem c x (set_add c y s1) = is_equal c x y || set_mem c x s1 /\
  set_mem c x (set_delete c y s1) = negb (is_equal c x y) && set_mem c x s1 /\
  set_mem c x (set_union c s1 s2) = set_mem c x s1 || set_mem c x s2 /\
  set_mem c x (set_inter c s1 s2) = set_mem c x s1 && set_mem c x s2 /\
  set_mem c x (set_diff c s1 s2) = set_mem c x s1 && negb (set_mem c x s2) /\
  (set_subset c s1 s2 = true <-> forall z, set_mem c z s1 = true -> set_mem c z s2 = true).
Proof.
  intros A c TP s1 s2 x y.
  assert (Fm : forall (p : A -> bool) s, (forall a b, c a b = Eq -> p a = p b) ->
     set_mem c x (filter p s) = p x && set_mem c x s).
  { intros p s Hp. induction s as [|z s IH]; [now rewrite andb_false_r|].
    rewrite filter_cons. cbn [set_mem existsb]. change (existsb (is_equal c x) s) with (set_mem c x s).
    destruct (p z) eqn:Pz; cbn [set_mem existsb]; change (existsb (is_equal c x) (filter p s)) with (set_mem c x (filter p s));
      rewrite IH; unfold is_equal; destruct (c x z) eqn:E; cbn; auto.
    - rewrite (Hp x z E), Pz. reflexivity.
    - rewrite (Hp x z E), Pz. reflexivity. }
  assert (Eqv : forall a b s, c a b = Eq -> set_mem c a s = set_mem c b s) by (intros; now apply set_mem_eq).
  split. { unfold set_add. destruct (set_mem c y s1) eqn:M; [|reflexivity].
    unfold is_equal. destruct (c x y) eqn:E; cbn; auto. now rewrite (Eqv x y s1 E). }
  split. { unfold set_delete. rewrite Fm.
    - f_equal. f_equal. unfold is_equal. rewrite (tp_sym c TP x y). now destruct (c x y).
    - intros a b E. f_equal. unfold is_equal.
      destruct (c y a) eqn:E1, (c y b) eqn:E2; try reflexivity; exfalso;
        (assert (c y b = Eq) by (eapply tp_eq_trans; eauto)) || (assert (c y a = Eq) by (eapply tp_eq_trans; eauto using tp_eq_sym)); congruence. }
  split. { unfold set_union. unfold set_mem at 1. rewrite existsb_app. fold (set_mem c x s1).
    change (existsb (is_equal c x) (filter (fun y0 => negb (set_mem c y0 s1)) s2)) with
      (set_mem c x (filter (fun y0 => negb (set_mem c y0 s1)) s2)).
    rewrite Fm; [destruct (set_mem c x s1); reflexivity|]. intros a b E. now rewrite (Eqv a b s1 E). }
  split. { unfold set_inter. rewrite Fm; [apply andb_comm|]. intros a b E. now rewrite (Eqv a b s2 E). }
  split. { unfold set_diff. rewrite Fm; [apply andb_comm|]. intros a b E. now rewrite (Eqv a b s2 E). }
  unfold set_subset. rewrite forallb_forall. split.
  - intros H z Hz. apply set_mem_true in Hz as (w & Hw & E). rewrite (Eqv z w s2 E). auto.
  - intros H z Hz. apply H. apply set_mem_true. exists z. split; [assumption|]. apply (tp_refl c TP).
Qed.

(** Every reachable tree is a red-black tree with depth at most 2 log2(n+1). *)
Fixpoint no_red_red {A} (t : tree A) : Prop :=
  match t with
  | LEAF => True
  | BLACK _ l r => no_red_red l /\ no_red_red r
  | RED _ l r =>
    (match l with RED _ _ _ => False | _ => True end) /\
    (match r with RED _ _ _ => False | _ => True end) /\ no_red_red l /\ no_red_red r
  end.
Fixpoint black_paths {A} (t : tree A) : list nat :=
  match t with
  | LEAF => [O]
  | RED _ l r => black_paths l ++ black_paths r
  | BLACK _ l r => List.map S (black_paths l ++ black_paths r)
  end.
Lemma rb_no_red_red {A} n (t : tree A) : rb n t -> no_red_red t.
Proof.
  induction 1 as [|n k l r Hl IHl Hr IHr E1 E2|n k l r Hl IHl Hr IHr]; cbn; auto.
  destruct l, r; cbn in *; try discriminate; auto.
Qed.
Lemma rb_black_paths {A} n (t : tree A) : rb n t -> forall a, In a (black_paths t) -> a = n.
Proof.
  induction 1 as [|n k l r Hl IHl Hr IHr E1 E2|n k l r Hl IHl Hr IHr]; cbn [black_paths]; intros a H.
  - destruct H as [<-|[]]. reflexivity.
  - apply in_app_or in H as [H|H]; auto.
  - apply in_map_iff in H as (b & <- & H). apply in_app_or in H as [H|H]; f_equal; auto.
Qed.
Theorem C27_balanced : forall A (c : A -> A -> comparison) d s, built A c d s ->
  no_red_red (fst d) /\
  (forall a b, In a (black_paths (fst d)) -> In b (black_paths (fst d)) -> a = b) /\
  2 ^ depth d <= (numItems d + 1) ^ 2.
Proof.
  intros A c d s H. apply built_inv in H as [TP (L & (n & HR) & Hred & Hn)].
  split; [eapply rb_no_red_red; eauto|]. split.
  - intros a b Ha Hb. transitivity n; [|symmetry]; eapply rb_black_paths; eauto.
  - unfold numItems, depth. rewrite Hn, <- (set_lists_length _ _ _ L), depth_height.
    pose proof (rb_balanced n (fst d) HR Hred) as H. apply Nat2Z.inj_le in H.
    rewrite !Nat2Z.inj_pow in H. rewrite Nat2Z.inj_add in H. exact H.
Qed.

(** map always succeeds. *)
Theorem C27_map : forall A B (c : A -> A -> comparison) (c' : B -> B -> comparison) (f : A -> B) d s,
  built A c d s -> total_preorder c' -> exists d', map f c' d = Ret d'.
Proof.
  intros A B c c' f d s H TP'. destruct (inv_map f c' TP' d) as (d' & E & _). eauto.
Qed.

(** Finding.  Documented: mapMono succeeds for a strictly increasing f.  It does not: it checks the
    images in reversed order.  In general mapMono succeeds exactly if f is strictly DEcreasing on s. *)
Theorem C27_mapMono_refuted : exists (f : Z -> Z) d s, built Z Z.compare d s /\
  (forall x y, Z.compare (f x) (f y) = Z.compare x y) /\ mapMono f Z.compare d = Raise NonMonotonic.
Proof.
  exists (fun x => x), (addList Z.compare empty [1; 2]), [2; 1]. split; [|split; reflexivity].
  apply (b_addList Z Z.compare empty [] [1; 2]). apply b_empty. apply to_tp, Z_compare_total_order.
Qed.
Theorem C27_mapMono_actual : forall A B (c : A -> A -> comparison) (c' : B -> B -> comparison) (f : A -> B) d s l,
  built A c d s -> set_lists c l s -> total_preorder c' ->
  (increasing c' (rev (List.map f l)) -> exists d', mapMono f c' d = Ret d') /\
  (~ increasing c' (rev (List.map f l)) -> mapMono f c' d = Raise NonMonotonic).
Proof.
  intros A B c c' f d s l H L TP'. apply built_inv in H as [TP H].
  assert (l = elements (fst d)) as -> by (eapply sorted_lists_unique; eauto; apply H).
  destruct (mapMono_spec f c' TP' d) as [(I1 & d2 & E2 & _)|(N & E)]; split; intros; eauto; contradiction.
Qed.

(** Finding.  Rbset.sig also documents: isSubset(s1,s2) implies compare(s1,s2) = LESS.
    A proper subset can compare GREATER. *)
Theorem C27_compare_doc_refuted : exists (d1 d2 : set Z) s1 s2,
  built Z Z.compare d1 s1 /\ built Z Z.compare d2 s2 /\
  isSubset Z.compare d1 d2 = Ret true /\ equal Z.compare d1 d2 = Ret false /\
  compare_sets Z.compare d1 d2 = Ret Gt.
Proof.
  exists (singleton 2), (add Z.compare (singleton 1) 2), [2], [2; 1].
  split; [apply b_singleton, to_tp, Z_compare_total_order|].
  split; [apply (b_add Z Z.compare (singleton 1) [1] 2), b_singleton, to_tp, Z_compare_total_order|].
  vm_compute. auto.
Qed.

(** A concrete program meeting the hypothesis [built]. *)
Example C27_example : exists d,
  built Z Z.compare d (set_diff Z.compare (set_union Z.compare [7; 1; 5; 3] [4; 5]) [3]) /\
  listItems d = Ret [1; 4; 5; 7].
Proof.
  assert (TP : total_preorder Z.compare) by apply to_tp, Z_compare_total_order.
  eexists. split.
  2: { instantiate (1 := match difference Z.compare (match union Z.compare (addList Z.compare empty [3; 5; 1; 7]) (addList Z.compare (singleton 5) [4]) with Ret u => u | _ => empty end) (singleton 3) with Ret u => u | _ => empty end). vm_compute. reflexivity. }
  eapply (b_diff Z Z.compare _ _ (singleton 3) [3]).
  - eapply (b_union Z Z.compare (addList Z.compare empty [3; 5; 1; 7]) _ (addList Z.compare (singleton 5) [4]));
      [apply (b_addList Z Z.compare empty [] [3; 5; 1; 7]), b_empty, TP
      |apply (b_addList Z Z.compare (singleton 5) [5] [4]), b_singleton, TP|reflexivity].
  - apply b_singleton, TP.
  - reflexivity.
Qed.

Print Assumptions C27_observers.
Print Assumptions C27_binary.
Print Assumptions C27_set_laws.
Print Assumptions C27_balanced.
Print Assumptions C27_map.
Print Assumptions C27_mapMono_refuted.
Print Assumptions C27_mapMono_actual.
Print Assumptions C27_compare_doc_refuted.
