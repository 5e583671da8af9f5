(** Facts about the shared hash table code. *)
From Coq Require Import Sorting.Permutation.
From Verif Require Import Base ArrayLib Hash_Model.

(** ** roundUp and index *)
Lemma lshift1_small i : 0 <= i < 2 ^ 61 -> lshift1 i = 2 * i.
Proof.
  intros H. unfold lshift1. rewrite Z.mod_small; [lia|].
  change (2 ^ 61) with 2305843009213693952 in H. unfold two62, two63. lia.
Qed.
Lemma index_mod i p : 0 <= p -> index i (2 ^ p) = i mod 2 ^ p.
Proof. intros H. unfold index. rewrite <- Z.land_ones by assumption. f_equal. rewrite Z.ones_equiv. lia. Qed.
Lemma index_range i p : 0 <= p -> 0 <= index i (2 ^ p) < 2 ^ p.
Proof. intros H. rewrite index_mod by assumption. apply Z.mod_pos_bound. now apply Z.pow_pos_nonneg. Qed.

(** Result of roundUp: the least power of two that is >= n and >= 32. *)
Lemma roundUp_f_spec n : n <= 2 ^ 61 -> forall k p fuel, 5 <= p <= 61 -> (Z.to_nat (61 - p) <= k)%nat -> (k < fuel)%nat ->
  (p = 5 \/ 2 ^ (p - 1) < n) ->
  exists q, roundUp_f fuel n (2 ^ p) = Ret (2 ^ q) /\ 5 <= q <= 61 /\ n <= 2 ^ q /\ (q = 5 \/ 2 ^ (q - 1) < n).
Proof.
  intros Hn. induction k as [|k IH]; intros p fuel Hp Hk Hf Hl; (destruct fuel as [|fuel]; [lia|]); cbn [roundUp_f];
    rewrite Z.geb_leb; destruct (Z.leb_spec n (2 ^ p)); try (exists p; repeat split; auto; lia).
  - assert (p = 61) by lia. subst. lia.
  - destruct (Z.eq_dec p 61); [subst; lia|].
    rewrite lshift1_small.
    + replace (2 * 2 ^ p) with (2 ^ (p + 1)) by (rewrite Z.pow_add_r by lia; lia).
      apply IH; try lia. right. replace (p + 1 - 1) with p by lia. assumption.
    + split; [apply Z.pow_nonneg; lia|]. apply Z.pow_lt_mono_r; lia.
Qed.
Lemma roundUp_spec fuel n : n <= 2 ^ 61 -> (57 <= fuel)%nat ->
  exists q, roundUp fuel n = Ret (2 ^ q) /\ 5 <= q <= 61 /\ n <= 2 ^ q /\ (q = 5 \/ 2 ^ (q - 1) < n).
Proof.
  intros Hn Hf. apply (roundUp_f_spec n Hn 56 5 fuel); try lia.
Qed.
(** Larger hints: the shifted-out bit makes the loop run forever. *)
Lemma roundUp_diverges fuel n : 2 ^ 61 < n -> roundUp fuel n = Diverge.
Proof.
  intros Hn. unfold roundUp.
  assert (H : forall fuel i, i = 0 \/ i = - two62 \/ (exists p, 0 <= p <= 61 /\ i = 2 ^ p) -> roundUp_f fuel n i = Diverge).
  { clear fuel. induction fuel as [|fuel IH]; intros i Hi; [reflexivity|]. cbn [roundUp_f].
    assert (i < n).
    { destruct Hi as [->|[->|(p & Hp & ->)]]; unfold two62.
      - eapply Z.lt_trans; [|exact Hn]. reflexivity.
      - eapply Z.lt_trans; [|exact Hn]. reflexivity.
      - eapply Z.le_lt_trans; [|exact Hn]. apply Z.pow_le_mono_r; lia. }
    rewrite Z.geb_leb. destruct (Z.leb_spec n i); [lia|]. apply IH.
    destruct Hi as [->|[->|(p & Hp & ->)]].
    - left. reflexivity.
    - left. reflexivity.
    - destruct (Z.eq_dec p 61) as [->|].
      + right. left. reflexivity.
      + right. right. exists (p + 1). split; [lia|].
        rewrite lshift1_small; [|split; [apply Z.pow_nonneg; lia|apply Z.pow_lt_mono_r; lia]].
        rewrite Z.pow_add_r by lia. lia. }
  apply H. right. right. exists 5. split; [lia|reflexivity].
Qed.

(** ** counting loops *)
Lemma for_up_inv {S} (P : Z -> S -> Prop) sz body : forall fuel i s,
  (forall i s, 0 <= i < sz -> P i s -> exists s', body i s = Ret s' /\ P (i + 1) s') ->
  0 <= i <= sz -> sz - i < Z.of_nat fuel -> P i s -> exists s', for_up fuel i sz body s = Ret s' /\ P sz s'.
Proof.
  induction fuel as [|fuel IH]; intros i s Hb Hi Hf HP; [lia|]. cbn [for_up].
  destruct (Z.ltb_spec i sz).
  - destruct (Hb i s) as (s' & E & HP'); [lia|assumption|]. rewrite E. cbn [bind]. apply IH; auto; lia.
  - exists s. split; [reflexivity|]. assert (i = sz) by lia. now subst.
Qed.

(** ** arrays of buckets *)
Lemma zget_split {B} (a : list B) i b : zget a i = Some b -> exists l1 l2, a = l1 ++ b :: l2 /\ zlen l1 = i /\
  forall b', zset a i b' = Some (l1 ++ b' :: l2).
Proof.
  intros H. pose proof (zget_range _ _ _ H) as R. unfold zget in H. destruct (Z.ltb_spec i 0); [lia|].
  apply nth_error_split in H as (l1 & l2 & E & L). exists l1, l2. split; [assumption|].
  split; [unfold zlen; lia|]. intros b'. unfold zset. destruct (Z.ltb_spec i 0); [lia|].
  destruct (Z.leb_spec (zlen a) i); [lia|]. cbn [orb]. f_equal. rewrite E. apply upd_middle. lia.
Qed.
Lemma zget_mid {B} (l1 l2 : list B) b : zget (l1 ++ b :: l2) (zlen l1) = Some b.
Proof. rewrite zget_app. destruct (Z.ltb_spec (zlen l1) (zlen l1)); [lia|]. rewrite Z.sub_diag. rewrite zget_cons. reflexivity. Qed.
Lemma concat_mid {B} (l1 l2 : list (list B)) b : concat (l1 ++ b :: l2) = concat l1 ++ b ++ concat l2.
Proof. rewrite concat_app. reflexivity. Qed.
Lemma In_concat {B} (x : B) (a : list (list B)) : In x (concat a) <-> exists i b, zget a i = Some b /\ In x b.
Proof.
  rewrite in_concat. split.
  - intros (b & Hb & Hx). apply In_zget in Hb as (i & Hi). eauto.
  - intros (i & b & Hi & Hx). exists b. split; [eapply zget_In; eauto|assumption].
Qed.

Section P.
Context {K E : Type} (key : E -> K) (hashVal : K -> Z) (sameKey : K -> K -> bool).
(** the requirements stated in Polyhash.sig and Hashset.sig, with sameKey an equivalence *)
Hypothesis same_refl : forall k, sameKey k k = true.
Hypothesis same_sym : forall k k', sameKey k k' = true -> sameKey k' k = true.
Hypothesis same_trans : forall k1 k2 k3, sameKey k1 k2 = true -> sameKey k2 k3 = true -> sameKey k1 k3 = true.
Hypothesis same_hash : forall k k', sameKey k k' = true -> hashVal k = hashVal k'.

Notation cell := (Z * E)%type.
Notation same k e := (sameKey k (key e)).

(** every cell stores the hash code of its key and lies in the bucket of that code *)
Definition placed (a : list (bucket E)) (sz : Z) : Prop :=
  forall i b, zget a i = Some b -> forall c, In c b -> fst c = hashVal (key (snd c)) /\ index (fst c) sz = i.
Definition good_arr (a : list (bucket E)) : Prop := (exists p, 5 <= p <= 53 /\ zlen a = 2 ^ p) /\ placed a (zlen a).
Definition entries (a : list (bucket E)) : list E := map snd (concat a).
Definition distinct (m : list E) : Prop := ForallOrdPairs (fun e1 e2 => sameKey (key e1) (key e2) = false) m.

Lemma same_false_sym k k' : sameKey k k' = false -> sameKey k' k = false.
Proof. intros H. destruct (sameKey k' k) eqn:F; [|reflexivity]. apply same_sym in F. congruence. Qed.
Lemma distinct_cons e m : distinct (e :: m) <-> Forall (fun x => sameKey (key e) (key x) = false) m /\ distinct m.
Proof. split; [intros H; inversion H; auto|]. intros []. now constructor. Qed.
Lemma distinct_perm m m' : Permutation m m' -> distinct m -> distinct m'.
Proof.
  unfold distinct. induction 1 as [|x l l' HP IH|x y l|l1 l2 l3 H1 IH1 H2 IH2]; intros D; auto.
  - apply distinct_cons in D as [F D]. apply distinct_cons. split; [|now apply IH].
    eapply Permutation_Forall; eauto.
  - apply distinct_cons in D as [F D]. apply distinct_cons in D as [F' D].
    inversion F as [|? ? F1 F2]; subst.
    apply distinct_cons. split; [constructor; [now apply same_false_sym|assumption]|]. apply distinct_cons. auto.
Qed.
Lemma distinct_app m1 m2 : distinct (m1 ++ m2) -> distinct m1 /\ distinct m2.
Proof.
  unfold distinct. induction m1 as [|x m1 IH]; cbn; intros D; [split; [constructor|assumption]|].
  apply distinct_cons in D as [F D]. apply Forall_app in F as [F1 F2]. destruct (IH D) as [D1 D2].
  split; [now apply distinct_cons|assumption].
Qed.
Lemma distinct_filter f m : distinct m -> distinct (filter f m).
Proof.
  unfold distinct. induction m as [|x m IH]; intros D; cbn; [constructor|]. apply distinct_cons in D as [F D].
  destruct (f x); [|now apply IH]. apply distinct_cons. split; [|now apply IH]. rewrite Forall_forall in *.
  intros y Hy. apply filter_In in Hy as [Hy _]. auto.
Qed.

(** the abstract operations *)
Definition m_remove (k : K) (m : list E) : list E := filter (fun e => negb (same k e)) m.
Definition m_insert (e : E) (m : list E) : list E := e :: m_remove (key e) m.
Definition m_find (k : K) (m : list E) : option E := find (fun e => same k e) m.

Lemma filter_all f (m : list E) : (forall x, In x m -> f x = true) -> filter f m = m.
Proof.
  induction m as [|x m IH]; intros H; [reflexivity|]. cbn. rewrite (H x) by now left. f_equal.
  apply IH. intros y Hy. apply H. now right.
Qed.
Lemma m_remove_absent k m : (forall x, In x m -> same k x = false) -> m_remove k m = m.
Proof. intros H. apply filter_all. intros x Hx. now rewrite H. Qed.
Lemma m_find_absent k m : (forall x, In x m -> same k x = false) -> m_find k m = None.
Proof. induction m as [|x m IH]; intros H; [reflexivity|]. cbn. rewrite (H x) by now left. apply IH. intros. apply H. now right. Qed.
Lemma others_differ k e m : distinct (e :: m) -> same k e = true -> forall x, In x m -> same k x = false.
Proof.
  intros D H x Hx. apply distinct_cons in D as [F _]. rewrite Forall_forall in F. specialize (F x Hx).
  destruct (same k x) eqn:G; [|reflexivity]. rewrite <- F. symmetry.
  eapply same_trans; [apply same_sym|]; eauto.
Qed.
(** removing the (only) entry for k, wherever it is *)
Lemma m_remove_present k m1 e m2 : distinct (m1 ++ e :: m2) -> same k e = true -> m_remove k (m1 ++ e :: m2) = m1 ++ m2.
Proof.
  intros D H.
  assert (O : forall x, In x (m1 ++ m2) -> same k x = false).
  { apply others_differ with (e := e); [|assumption]. eapply distinct_perm; [|exact D].
    apply Permutation_sym, Permutation_middle. }
  unfold m_remove. rewrite filter_app. cbn [filter]. rewrite H. cbn [negb].
  rewrite <- filter_app. apply filter_all. intros x Hx. now rewrite O.
Qed.
Lemma m_find_present k m1 e m2 : distinct (m1 ++ e :: m2) -> same k e = true -> m_find k (m1 ++ e :: m2) = Some e.
Proof.
  intros D H.
  assert (O : forall x, In x (m1 ++ m2) -> same k x = false).
  { apply others_differ with (e := e); [|assumption]. eapply distinct_perm; [|exact D].
    apply Permutation_sym, Permutation_middle. }
  induction m1 as [|x m1 IH]; cbn.
  - now rewrite H.
  - rewrite (O x) by now left. apply IH.
    + cbn in D. now apply distinct_cons in D.
    + intros y Hy. apply O. now right.
Qed.
Lemma m_remove_perm k m m' : Permutation m m' -> Permutation (m_remove k m) (m_remove k m').
Proof.
  unfold m_remove. intros H. induction H as [|x l l' HP IH|x y l|l1 l2 l3 H1 IH1 H2 IH2]; cbn.
  - constructor.
  - destruct (negb _); auto.
  - destruct (negb (same k x)), (negb (same k y)); auto. constructor.
  - etransitivity; eauto.
Qed.
Lemma m_find_In k m e : distinct m -> (m_find k m = Some e <-> In e m /\ same k e = true).
Proof.
  intros D. split.
  - intros H. apply find_some in H. exact H.
  - intros [Hi Hs]. apply in_split in Hi as (m1 & m2 & ->). now apply m_find_present.
Qed.
Lemma m_find_None k m : m_find k m = None <-> forall x, In x m -> same k x = false.
Proof.
  split.
  - intros H x Hx. apply (find_none _ _ H x Hx).
  - apply m_find_absent.
Qed.
Lemma m_find_perm k m m' : distinct m -> Permutation m m' -> m_find k m = m_find k m'.
Proof.
  intros D P. assert (D' : distinct m') by (eapply distinct_perm; eauto).
  destruct (m_find k m) as [e|] eqn:F.
  - symmetry. apply m_find_In; [assumption|]. apply m_find_In in F; [|assumption]. destruct F. split; [|assumption].
    eapply Permutation_in; eauto.
  - symmetry. rewrite m_find_None in *. intros x Hx. apply F. eapply Permutation_in; [|exact Hx]. now apply Permutation_sym.
Qed.

(** lookups in one bucket *)
Lemma look_spec k (b : bucket E) : (forall c, In c b -> fst c = hashVal (key (snd c))) ->
  match look key sameKey (hashVal k) k b with
  | Some e => exists b1 h b2, b = b1 ++ (h, e) :: b2 /\ h = hashVal (key e) /\ same k e = true /\ (forall c, In c b1 -> same k (snd c) = false)
  | None => forall c, In c b -> same k (snd c) = false
  end.
Proof.
  induction b as [|[h x] b IH]; intros H; cbn [look]; [intros c []|].
  assert (Hh : h = hashVal (key x)) by (apply (H (h, x)); now left).
  destruct (same k x) eqn:S.
  - assert (hashVal k =? h = true) as -> by (rewrite Hh; apply Z.eqb_eq; now apply same_hash). cbn [andb].
    exists [], h, b. split; [reflexivity|]. split; [assumption|]. split; [assumption|]. intros c [].
  - rewrite andb_false_r. specialize (IH (fun c Hc => H c (or_intror Hc))).
    destruct (look key sameKey (hashVal k) k b) as [e|].
    + destruct IH as (b1 & h' & b2 & -> & E' & S' & N). exists ((h, x) :: b1), h', b2.
      split; [reflexivity|]. split; [assumption|]. split; [assumption|]. intros c [<-|Hc]; [assumption|auto].
    + intros c [<-|Hc]; [assumption|auto].
Qed.
Lemma look_remove_spec k (b : bucket E) : (forall c, In c b -> fst c = hashVal (key (snd c))) ->
  match look_remove key sameKey (hashVal k) k b with
  | Some (e, b') => exists b1 h b2, b = b1 ++ (h, e) :: b2 /\ same k e = true /\ b' = b1 ++ b2
  | None => forall c, In c b -> same k (snd c) = false
  end.
Proof.
  induction b as [|[h x] b IH]; intros H; cbn [look_remove]; [intros c []|].
  assert (Hh : h = hashVal (key x)) by (apply (H (h, x)); now left).
  destruct (same k x) eqn:S.
  - assert (hashVal k =? h = true) as -> by (rewrite Hh; apply Z.eqb_eq; now apply same_hash). cbn [andb].
    exists [], h, b. auto.
  - rewrite andb_false_r. specialize (IH (fun c Hc => H c (or_intror Hc))).
    destruct (look_remove key sameKey (hashVal k) k b) as [[e b']|].
    + destruct IH as (b1 & h' & b2 & -> & S' & ->). exists ((h, x) :: b1), h', b2. auto.
    + intros c [<-|Hc]; [assumption|auto].
Qed.

(** the bucket where entries equal to k must be *)
Lemma bucket_exists a k : good_arr a -> exists b, sub_chk a (index (hashVal k) (zlen a)) = Ret b /\
  zget a (index (hashVal k) (zlen a)) = Some b.
Proof.
  intros [(p & Hp & L) _]. destruct (zget_some a (index (hashVal k) (zlen a))) as [b Hb].
  - rewrite L. apply index_range. lia.
  - exists b. unfold sub_chk. now rewrite Hb.
Qed.
Lemma bucket_cells a i b c : placed a (zlen a) -> zget a i = Some b -> In c b -> fst c = hashVal (key (snd c)).
Proof. intros P G Hc. now apply (P i b G c). Qed.
(** an entry equal to k anywhere is in that bucket *)
Lemma same_in_bucket a k b c : placed a (zlen a) -> zget a (index (hashVal k) (zlen a)) = Some b ->
  In c (concat a) -> same k (snd c) = true -> In c b.
Proof.
  intros P G Hc S. apply In_concat in Hc as (i & b' & Hi & Hc). destruct (P i b' Hi c Hc) as [H1 H2].
  rewrite <- (same_hash _ _ S) in H1. rewrite H1 in H2. rewrite <- H2 in Hi. pose proof (eq_trans (eq_sym Hi) G) as EQ. injection EQ as ->. assumption.
Qed.

(** ** tables *)
Definition inv (t : table E) (m : list E) : Prop :=
  good_arr (arr t) /\ Permutation (entries (arr t)) m /\ distinct m /\ n_items t = Z.of_nat (length m).

Lemma entries_mid l1 b l2 : entries (l1 ++ b :: l2) = map snd (concat l1) ++ map snd b ++ map snd (concat l2).
Proof. unfold entries. rewrite concat_mid, !map_app. reflexivity. Qed.

Lemma lookup_spec t m k : inv t m -> lookup key hashVal sameKey t k = Ret (m_find k m).
Proof.
  intros (G & P & D & N). unfold lookup. destruct (bucket_exists (arr t) k G) as (b & -> & Gb). cbn [bind]. f_equal.
  rewrite <- (m_find_perm k _ _ (distinct_perm _ _ (Permutation_sym P) D) P).
  assert (De : distinct (entries (arr t))) by (eapply distinct_perm; [apply Permutation_sym; eassumption|assumption]).
  destruct G as [_ Pl].
  pose proof (look_spec k b (fun c => bucket_cells _ _ _ c Pl Gb)) as L.
  destruct (look key sameKey (hashVal k) k b) as [e|]; symmetry.
  - destruct L as (b1 & h & b2 & -> & _ & S & _). apply m_find_In; [assumption|]. split; [|assumption].
    unfold entries. apply in_map_iff. exists (h, e). split; [reflexivity|].
    apply In_concat. eexists. eexists. split; [exact Gb|]. apply in_or_app. right. now left.
  - apply m_find_None. intros x Hx. apply in_map_iff in Hx as (c & <- & Hc).
    destruct (same k (snd c)) eqn:S; [|reflexivity]. rewrite (L c) in S; [discriminate|].
    eapply same_in_bucket; eauto.
Qed.

(** replacing one bucket *)
Lemma placed_set a i b b' l1 l2 : placed a (zlen a) -> a = l1 ++ b :: l2 -> zlen l1 = i ->
  (forall c, In c b' -> fst c = hashVal (key (snd c)) /\ index (fst c) (zlen a) = i) ->
  placed (l1 ++ b' :: l2) (zlen (l1 ++ b' :: l2)) /\ zlen (l1 ++ b' :: l2) = zlen a.
Proof.
  intros P -> L H. assert (LL : zlen (l1 ++ b' :: l2) = zlen (l1 ++ b :: l2)) by (rewrite !zlen_app, !zlen_cons; reflexivity).
  split; [|assumption]. rewrite LL. intros j x Hj c Hc.
  rewrite zget_app in Hj. destruct (Z.ltb_spec j (zlen l1)).
  - apply (P j x); [|assumption]. rewrite zget_app. destruct (Z.ltb_spec j (zlen l1)); [assumption|lia].
  - rewrite zget_cons in Hj. destruct (Z.eqb_spec (j - zlen l1) 0).
    + injection Hj as <-. replace j with i by lia. auto.
    + apply (P j x); [|assumption]. rewrite zget_app. destruct (Z.ltb_spec j (zlen l1)); [lia|].
      rewrite zget_cons. destruct (Z.eqb_spec (j - zlen l1) 0); [lia|assumption].
Qed.

Lemma remove_spec nf t m k : inv t m ->
  match m_find k m with
  | Some e => exists t', remove key hashVal sameKey nf t k = Ret (e, t') /\ inv t' (m_remove k m)
  | None => remove key hashVal sameKey nf t k = Raise nf
  end.
Proof.
  intros I. pose proof I as (G & P & D & N).
  pose proof (distinct_perm _ _ (Permutation_sym P) D) as De.
  unfold remove. destruct (bucket_exists (arr t) k G) as (b & -> & Gb). cbn [bind].
  pose proof G as [(p & Hp & L) Pl].
  pose proof (look_remove_spec k b (fun c => bucket_cells _ _ _ c Pl Gb)) as LR.
  rewrite <- (m_find_perm k _ _ De P).
  destruct (look_remove key sameKey (hashVal k) k b) as [[e b']|].
  - destruct LR as (b1 & h & b2 & -> & S & ->).
    destruct (zget_split _ _ _ Gb) as (l1 & l2 & Ea & Ll & Hset).
    assert (Ee : entries (arr t) = (map snd (concat l1) ++ map snd b1) ++ e :: (map snd b2 ++ map snd (concat l2))).
    { rewrite Ea, entries_mid, map_app. cbn [map snd]. rewrite <- !app_assoc. reflexivity. }
    rewrite Ee in De |- *. rewrite m_find_present by assumption.
    unfold update_chk. rewrite Hset. cbn [bind]. eexists. split; [reflexivity|].
    assert (PR : Permutation (m_remove k m) ((map snd (concat l1) ++ map snd b1) ++ (map snd b2 ++ map snd (concat l2)))).
    { rewrite <- (m_remove_present k _ e _ De S). apply m_remove_perm. rewrite <- Ee. now apply Permutation_sym. }
    destruct (placed_set (arr t) _ _ (b1 ++ b2) l1 l2 Pl Ea Ll) as [Pl' L'].
    { intros c Hc. apply (Pl _ _ Gb c). apply in_app_iff in Hc. apply in_app_iff. destruct Hc; [auto|right; now right]. }
    split; [split; [exists p; split; [assumption|cbn [arr]; congruence]|assumption]|]. split; [|split].
    + cbn [arr]. rewrite entries_mid, map_app. apply Permutation_sym. rewrite <- !app_assoc in PR |- *. exact PR.
    + apply distinct_filter. assumption.
    + cbn [n_items]. rewrite N. apply Permutation_length in PR. apply Permutation_length in P. rewrite PR.
      rewrite Ee in P. rewrite !app_length in *. cbn [length] in P. rewrite app_length in P. lia.
  - rewrite (proj2 (m_find_None k _)); [reflexivity|]. intros x Hx. apply in_map_iff in Hx as (c & <- & Hc).
    destruct (same k (snd c)) eqn:S; [|reflexivity]. rewrite (LR c) in S; [discriminate|].
    eapply same_in_bucket; eauto.
Qed.

(** ** insertion, for any growTable that preserves the invariant *)
Section Grow.
Context (growTable : table E -> outcome (table E)) (bound : Z).
Hypothesis grow_ok : forall t m, inv t m -> n_items t <= bound -> exists t', growTable t = Ret t' /\ inv t' m.

Lemma insert_new_inv t m k e h : inv t m -> h = hashVal (key e) -> k = key e -> m_find k m = None -> n_items t < bound ->
  exists b, sub_chk (arr t) (index h (zlen (arr t))) = Ret b /\
  exists a, update_chk (arr t) (index h (zlen (arr t))) ((h, e) :: b) = Ret a /\
  exists t', growTable (HT a (n_items t + 1)) = Ret t' /\ inv t' (m_insert e m).
Proof.
  intros (G & P & D & N) -> -> F B. destruct (bucket_exists (arr t) (key e) G) as (b & Eb & Gb).
  exists b. split; [assumption|].
  destruct (zget_split _ _ _ Gb) as (l1 & l2 & Ea & Ll & Hset). pose proof G as [(p & Hp & L) Pl].
  eexists. split; [unfold update_chk; now rewrite Hset|].
  rewrite m_find_None in F.
  destruct (placed_set (arr t) _ _ ((hashVal (key e), e) :: b) l1 l2 Pl Ea Ll) as [Pl' L'].
  { intros c [<-|Hc]; [split; reflexivity|]. now apply (Pl _ _ Gb c). }
  apply grow_ok; [|cbn [n_items]; lia]. unfold m_insert. rewrite m_remove_absent by assumption.
  split; [split; [exists p; split; [assumption|cbn [arr]; congruence]|assumption]|]. split; [|split].
  - cbn [arr]. rewrite entries_mid. cbn [map snd]. apply Permutation_sym.
    apply Permutation_cons_app. rewrite Ea, entries_mid in P. now apply Permutation_sym.
  - apply distinct_cons. split; [|assumption]. apply Forall_forall. assumption.
  - cbn [n_items length]. lia.
Qed.

Lemma look_insert_spec t m e b (I : inv t m) : n_items t < bound ->
  (forall c, In c b -> fst c = hashVal (key (snd c))) ->
  match look key sameKey (hashVal (key e)) (key e) b with
  | Some x => exists b1 h b2, b = b1 ++ (h, x) :: b2 /\ same (key e) x = true /\
      look_insert key sameKey growTable t (hashVal (key e)) (index (hashVal (key e)) (zlen (arr t))) e b
      = Ret (b1 ++ (hashVal (key e), e) :: b2, t)
  | None => m_find (key e) m = None -> exists t',
      look_insert key sameKey growTable t (hashVal (key e)) (index (hashVal (key e)) (zlen (arr t))) e b = Ret ([], t') /\
      inv t' (m_insert e m)
  end.
Proof.
  intros B. induction b as [|[h x] b IH]; intros H; cbn [look look_insert].
  - intros F. destruct (insert_new_inv t m (key e) e _ I eq_refl eq_refl F B) as (b & -> & a & Eu & t' & Eg & I').
    cbn [bind]. rewrite Eu. cbn [bind]. rewrite Eg. cbn [bind]. eauto.
  - assert (Hh : h = hashVal (key x)) by (apply (H (h, x)); now left).
    destruct (same (key e) x) eqn:S.
    + assert (hashVal (key e) =? h = true) as -> by (rewrite Hh; apply Z.eqb_eq; now apply same_hash). cbn [andb].
      exists [], h, b. auto.
    + rewrite andb_false_r. specialize (IH (fun c Hc => H c (or_intror Hc))).
      destruct (look key sameKey (hashVal (key e)) (key e) b) as [y|].
      * destruct IH as (b1 & h' & b2 & -> & S' & ->). cbn [bind]. exists ((h, x) :: b1), h', b2.
        split; [reflexivity|]. split; [assumption|]. destruct (b1 ++ (hashVal (key e), e) :: b2) eqn:Z; [destruct b1; discriminate|].
        rewrite <- Z. reflexivity.
      * intros F. destruct (IH F) as (t' & -> & I'). cbn [bind]. eauto.
Qed.

Lemma insert_spec t m e : inv t m -> n_items t < bound ->
  exists t', insert key hashVal sameKey growTable t e = Ret t' /\ inv t' (m_insert e m).
Proof.
  intros I B. pose proof I as (G & P & D & N). pose proof G as [(p & Hp & L) Pl].
  pose proof (distinct_perm _ _ (Permutation_sym P) D) as De.
  unfold insert. destruct (bucket_exists (arr t) (key e) G) as (b & Eb & Gb). rewrite Eb. cbn [bind].
  pose proof (look_insert_spec t m e b I B (fun c => bucket_cells _ _ _ c Pl Gb)) as LI.
  pose proof (look_spec (key e) b (fun c => bucket_cells _ _ _ c Pl Gb)) as LS.
  destruct (look key sameKey (hashVal (key e)) (key e) b) as [x|].
  - destruct LI as (b1 & h & b2 & -> & S & ->). cbn [bind].
    destruct (b1 ++ (hashVal (key e), e) :: b2) eqn:Z; [destruct b1; discriminate|]. rewrite <- Z. clear Z.
    destruct (zget_split _ _ _ Gb) as (l1 & l2 & Ea & Ll & Hset).
    unfold update_chk. rewrite Hset. cbn [bind]. eexists. split; [reflexivity|].
    assert (Ee : entries (arr t) = (map snd (concat l1) ++ map snd b1) ++ x :: (map snd b2 ++ map snd (concat l2))).
    { rewrite Ea, entries_mid, map_app. cbn [map snd]. rewrite <- !app_assoc. reflexivity. }
    rewrite Ee in De.
    assert (PR : Permutation (m_remove (key e) m) ((map snd (concat l1) ++ map snd b1) ++ (map snd b2 ++ map snd (concat l2)))).
    { rewrite <- (m_remove_present (key e) _ x _ De S). apply m_remove_perm. rewrite <- Ee. now apply Permutation_sym. }
    destruct (placed_set (arr t) _ _ (b1 ++ (hashVal (key e), e) :: b2) l1 l2 Pl Ea Ll) as [Pl' L'].
    { intros c0 Hc. apply in_app_iff in Hc as [Hc|[<-|Hc]].
      - apply (Pl _ _ Gb c0). apply in_app_iff. auto.
      - split; reflexivity.
      - apply (Pl _ _ Gb c0). apply in_app_iff. right. now right. }
    split; [split; [exists p; split; [assumption|cbn [arr]; congruence]|assumption]|]. split; [|split].
    + cbn [arr]. rewrite entries_mid, map_app. cbn [map snd]. unfold m_insert.
      rewrite <- !app_assoc. cbn [app].
      rewrite app_assoc. apply Permutation_sym, Permutation_cons_app. rewrite <- !app_assoc in *. exact PR.
    + apply distinct_cons. split; [|now apply distinct_filter]. apply Forall_forall. intros y Hy.
      apply filter_In in Hy as [_ Hy]. now destruct (same (key e) y).
    + cbn [n_items]. rewrite N. unfold m_insert. cbn [length]. apply Permutation_length in PR. apply Permutation_length in P. rewrite PR.
      rewrite Ee in P. rewrite !app_length in *. cbn [length] in P. rewrite app_length in P. lia.
  - destruct LI as (t' & -> & I').
    + rewrite <- (m_find_perm (key e) _ _ De P). apply m_find_None.
      intros x Hx. apply in_map_iff in Hx as (c & <- & Hc).
      destruct (same (key e) (snd c)) eqn:S; [|reflexivity]. rewrite (LS c) in S; [discriminate|].
      eapply same_in_bucket; eauto.
    + cbn [bind]. eauto.
Qed.
End Grow.

(** ** growing: moving one cell to the new array *)
Lemma copy1_spec p na h e : 5 <= p -> zlen na = 2 ^ p -> placed na (2 ^ p) -> h = hashVal (key e) ->
  exists na', copy1 (2 ^ p) na h e = Ret na' /\ zlen na' = 2 ^ p /\ placed na' (2 ^ p) /\
    Permutation (concat na') ((h, e) :: concat na).
Proof.
  intros Hp L Pl ->. unfold copy1. destruct (zget_some na (index (hashVal (key e)) (2 ^ p))) as (b & Gb).
  { rewrite L. apply index_range. lia. }
  unfold sub_chk. rewrite Gb. cbn [bind]. destruct (zget_split _ _ _ Gb) as (l1 & l2 & Ea & Ll & Hset).
  unfold update_chk. rewrite Hset. eexists. split; [reflexivity|].
  rewrite <- L in Pl, Gb, Ll.
  destruct (placed_set na _ b ((hashVal (key e), e) :: b) l1 l2 Pl Ea Ll) as [Pl' L'].
  { intros c [<-|Hc]; [split; reflexivity|]. now apply (Pl _ _ Gb c). }
  rewrite L' in Pl'. rewrite L in Pl', L'. split; [assumption|]. split; [assumption|].
  rewrite Ea, !concat_mid. cbn [app]. apply Permutation_sym, Permutation_middle.
Qed.
Lemma placed_empty p n : placed (repeat [] n) p.
Proof. intros i b Hb c Hc. apply zget_In, repeat_spec in Hb. subst b. destruct Hc. Qed.
Lemma concat_repeat_nil {B} n : concat (repeat (@nil B) n) = [].
Proof. induction n; cbn; auto. Qed.

Lemma inv_perm t m m' : inv t m -> Permutation m m' -> inv t m'.
Proof.
  intros (G & P & D & N) H. split; [assumption|]. split; [etransitivity; eauto|].
  split; [eapply distinct_perm; eauto|]. now rewrite <- (Permutation_length H).
Qed.
Lemma inv_empty p : 5 <= p <= 53 -> inv (HT (repeat [] (Z.to_nat (2 ^ p))) 0) [].
Proof.
  intros Hp. split; [split|].
  - exists p. split; [assumption|]. cbn [arr]. rewrite zlen_repeat. apply Z2Nat.id, Z.pow_nonneg. lia.
  - apply placed_empty.
  - cbn [arr n_items]. unfold entries. rewrite concat_repeat_nil. split; [constructor|]. split; [constructor|reflexivity].
Qed.
End P.
