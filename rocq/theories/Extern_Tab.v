(** Proofs about the table of emitted objects. *)
From Verif Require Import Base ArrayLib Extern_Model.

Section T.
Implicit Types t : list (Z * Z).
Definition obj_at t i := match zget t i with Some (o, _) => o | None => 0 end.
(** from slot [h], [n] steps over occupied slots lead to [i] *)
Inductive path t : nat -> Z -> Z -> Prop :=
| path_here h : path t 0 h h
| path_step n h i : obj_at t h <> 0 -> path t n (next (zlen t) h) i -> path t (S n) h i.

Record tab_ok t : Prop := {
  t_len : 0 < zlen t;
  t_path : forall i v o, zget t i = Some (v, o) -> v <> 0 -> exists n, (n < length t)%nat /\ path t n (hash (zlen t) v) i;
  t_uniq : forall i j v o p, zget t i = Some (v, o) -> zget t j = Some (v, p) -> v <> 0 -> i = j }.
(** the object [v] is recorded with [o] *)
Definition maps t v o := exists i, zget t i = Some (v, o).
Definition occupied t : nat := length (filter (fun e => negb (fst e =? 0)) t).

Lemma next_range n h : 0 <= h < n -> 0 <= next n h < n.
Proof. intros H. unfold next. rewrite Z.geb_leb. destruct (Z.leb_spec n (h + 1)); lia. Qed.
Lemma hash_range n v : 0 < n -> 0 <= hash n v < n.
Proof. intros H. unfold hash. apply Z.mod_pos_bound. lia. Qed.

(** every slot is reached by stepping *)
Fixpoint steps (n : Z) (k : nat) (h : Z) : Z := match k with O => h | S k => steps n k (next n h) end.
Lemma steps_up n : forall k h, 0 <= h -> h + Z.of_nat k < n -> steps n k h = h + Z.of_nat k.
Proof.
  induction k as [|k IH]; intros h Hh Hk; cbn [steps]; [lia|]. unfold next. rewrite Z.geb_leb.
  destruct (Z.leb_spec n (h + 1)); [lia|]. rewrite IH by lia. lia.
Qed.
Lemma steps_add n : forall a b h, steps n (a + b) h = steps n b (steps n a h).
Proof. induction a as [|a IH]; intros b h; cbn [steps Nat.add]; [reflexivity|]. apply IH. Qed.
Lemma steps_reach n h i : 0 <= h < n -> 0 <= i < n -> exists k, Z.of_nat k < n /\ steps n k h = i.
Proof.
  intros Hh Hi. destruct (Z.leb_spec h i).
  - exists (Z.to_nat (i - h)). split; [lia|]. rewrite steps_up by lia. lia.
  - exists (Z.to_nat (n - 1 - h) + (1 + Z.to_nat i))%nat. split; [lia|]. rewrite !steps_add.
    rewrite (steps_up n (Z.to_nat (n - 1 - h))) by lia. cbn [steps]. unfold next. rewrite Z.geb_leb.
    destruct (Z.leb_spec n (h + Z.of_nat (Z.to_nat (n - 1 - h)) + 1)); [|lia]. rewrite steps_up by lia. lia.
Qed.

(** ** Searching *)
Lemma sub_raw_entry t i : 0 <= i < zlen t -> exists o f, sub_raw t i = Ret (o, f) /\ zget t i = Some (o, f) /\ obj_at t i = o.
Proof.
  intros H. destruct (zget_some t i H) as [[o f] E]. exists o, f. unfold sub_raw, obj_at. rewrite E. auto.
Qed.
Lemma find_free_ok t : 0 < zlen t -> forall k fuel h, 0 <= h < zlen t -> (k < fuel)%nat ->
  obj_at t (steps (zlen t) k h) = 0 ->
  exists i n, find_free fuel t h = Ret i /\ 0 <= i < zlen t /\ obj_at t i = 0 /\ (n <= k)%nat /\ path t n h i.
Proof.
  intros L. induction k as [|k IH]; intros fuel h Hh Hf Hk; (destruct fuel as [|fuel]; [lia|]); cbn [find_free steps] in *.
  - destruct (sub_raw_entry t h Hh) as (o & f & E & _ & O). rewrite E. cbn [bind]. assert (o = 0) as Eo by congruence.
    rewrite (proj2 (Z.eqb_eq o 0)) by exact Eo. exists h, 0%nat. repeat split; try lia. constructor.
  - destruct (sub_raw_entry t h Hh) as (o & f & E & _ & O). rewrite E. cbn [bind]. destruct (Z.eqb_spec o 0) as [Eo|Eo].
    + exists h, 0%nat. repeat split; try lia. constructor.
    + destruct (IH fuel (next (zlen t) h)) as (i & n & E' & Hi & Ho & Hn & P); [now apply next_range|lia|exact Hk|].
      exists i, (S n). rewrite E'. repeat split; try lia. constructor; [congruence|exact P].
Qed.
Lemma find_absent t v : 0 < zlen t -> (forall i o, zget t i = Some (v, o) -> v = 0) -> v <> 0 ->
  forall k fuel h, 0 <= h < zlen t -> (k < fuel)%nat -> obj_at t (steps (zlen t) k h) = 0 ->
  exists i n, find fuel t h v = Ret (i, None) /\ 0 <= i < zlen t /\ obj_at t i = 0 /\ (n <= k)%nat /\ path t n h i.
Proof.
  intros L A V. induction k as [|k IH]; intros fuel h Hh Hf Hk; (destruct fuel as [|fuel]; [lia|]); cbn [find steps] in *.
  - destruct (sub_raw_entry t h Hh) as (o & f & E & _ & O). rewrite E. cbn [bind]. assert (o = 0) as Eo by congruence.
    rewrite (proj2 (Z.eqb_eq o 0)) by exact Eo. exists h, 0%nat. repeat split; try lia. constructor.
  - destruct (sub_raw_entry t h Hh) as (o & f & E & G & O). rewrite E. cbn [bind]. destruct (Z.eqb_spec o 0) as [Eo|Eo].
    + exists h, 0%nat. repeat split; try lia. constructor.
    + destruct (Z.eqb_spec o v) as [Ev|Ev]; [rewrite Ev in G; exfalso; exact (V (A _ _ G))|].
      destruct (IH fuel (next (zlen t) h)) as (i & n & E' & Hi & Ho & Hn & P); [now apply next_range|lia|exact Hk|].
      exists i, (S n). rewrite E'. repeat split; try lia. constructor; [congruence|exact P].
Qed.
Lemma find_present t v i o : tab_ok t -> zget t i = Some (v, o) -> v <> 0 ->
  forall n fuel h, 0 <= h < zlen t -> path t n h i -> (n < fuel)%nat -> find fuel t h v = Ret (i, Some o).
Proof.
  intros T E V. induction n as [|n IH]; intros fuel h Hh P Hf; (destruct fuel as [|fuel]; [lia|]); cbn [find];
    inversion P as [|? ? ? O P']; subst.
  - unfold sub_raw. rewrite E. cbn [bind]. destruct (Z.eqb_spec v 0); [contradiction|]. now rewrite Z.eqb_refl.
  - destruct (sub_raw_entry t h Hh) as (o' & f & E' & G & O'). rewrite E'. cbn [bind].
    destruct (Z.eqb_spec o' 0); [congruence|]. destruct (Z.eqb_spec o' v) as [Ev|Ev].
    + rewrite Ev in G. assert (X : h = i) by exact (t_uniq t T _ _ _ _ _ G E V). rewrite X, E in G. rewrite X. congruence.
    + apply IH; [now apply next_range|exact P'|lia].
Qed.

(** a table that is not full has a free slot *)
Lemma occupied_lt t : (occupied t < length t)%nat -> exists i, 0 <= i < zlen t /\ obj_at t i = 0.
Proof.
  unfold occupied. induction t as [|[o f] t IH]; cbn [length filter fst]; [lia|].
  destruct (Z.eqb_spec o 0) as [E|E]; cbn [negb length]; intros H.
  - exists 0. split; [rewrite zlen_cons; pose proof (zlen_nonneg t); lia|]. subst o. reflexivity.
  - destruct IH as (i & Hi & Ho); [lia|]. exists (i + 1). rewrite zlen_cons. split; [lia|].
    unfold obj_at in *. rewrite zget_cons. destruct (Z.eqb_spec (i + 1) 0); [lia|].
    replace (i + 1 - 1) with i by lia. exact Ho.
Qed.

(** ** Inserting *)
Lemma zset_obj t i e : 0 <= i < zlen t -> exists t', update_raw t i e = Ret t' /\ zlen t' = zlen t /\
  forall j, zget t' j = if j =? i then Some e else zget t j.
Proof.
  intros H. unfold update_raw. destruct (zset_some t i e H) as (t' & E & L & G). exists t'. rewrite E. auto.
Qed.
Lemma path_mono t t' : zlen t' = zlen t -> (forall j, obj_at t j <> 0 -> obj_at t' j <> 0) ->
  forall n h i, path t n h i -> path t' n h i.
Proof.
  intros L M. induction 1 as [h|n h i O P IH]; [constructor|]. constructor; [now apply M|]. now rewrite L.
Qed.
Lemma occupied_cons o f t : occupied ((o, f) :: t) = ((if (o =? 0)%Z then 0 else 1) + occupied t)%nat.
Proof. unfold occupied. cbn [filter fst]. now destruct (o =? 0). Qed.
Lemma occupied_set : forall t i e t', zlen t' = zlen t -> (forall j, zget t' j = if j =? i then Some e else zget t j) ->
  0 <= i < zlen t -> obj_at t i = 0 -> occupied t' = (occupied t + (if (fst e =? 0)%Z then 0 else 1))%nat.
Proof.
  induction t as [|[o f] t IH]; intros i e t' L G Hi Ho; [unfold zlen in Hi; cbn in Hi; lia|].
  destruct t' as [|[o' f'] t']; [unfold zlen in L; cbn in L; lia|]. rewrite !zlen_cons in *.
  destruct (Z.eqb_spec i 0) as [Ei|Ei].
  - subst i. assert (t' = t) as ->.
    { apply list_ext. intros k. destruct (Z.ltb_spec k 0); [rewrite !zget_none by lia; reflexivity|].
      specialize (G (k + 1)). rewrite !zget_cons in G. destruct (Z.eqb_spec (k + 1) 0); [lia|].
      replace (k + 1 - 1) with k in G by lia. exact G. }
    specialize (G 0). cbn in G. assert (e = (o', f')) as -> by congruence.
    cbn in Ho. subst o. rewrite !occupied_cons. cbn [fst Z.eqb]. lia.
  - pose proof (G 0) as G0. rewrite !zget_cons, Z.eqb_refl in G0. destruct (Z.eqb_spec 0 i); [lia|]. assert (o' = o /\ f' = f) as [-> ->] by (split; congruence).
    rewrite !occupied_cons, (IH (i - 1) e t' ltac:(lia)); [lia| |lia|].
    + intros j. destruct (Z.ltb_spec j 0); [rewrite !zget_none by lia; destruct (Z.eqb_spec j (i - 1)); [lia|reflexivity]|].
      specialize (G (j + 1)). rewrite !zget_cons in G. destruct (Z.eqb_spec (j + 1) 0); [lia|].
      replace (j + 1 - 1) with j in G by lia. rewrite G.
      destruct (Z.eqb_spec (j + 1) i), (Z.eqb_spec j (i - 1)); try lia; reflexivity.
    + unfold obj_at in *. rewrite zget_cons in Ho. destruct (Z.eqb_spec i 0); [lia|]. exact Ho.
Qed.
Lemma insert_ok t i v o n : tab_ok t -> v <> 0 -> (forall j p, zget t j = Some (v, p) -> v = 0) ->
  0 <= i < zlen t -> obj_at t i = 0 -> (n < length t)%nat -> path t n (hash (zlen t) v) i ->
  exists t', update_raw t i (v, o) = Ret t' /\ zlen t' = zlen t /\ tab_ok t' /\ occupied t' = S (occupied t) /\
    forall w p, w <> 0 -> (maps t' w p <-> maps t w p \/ (w = v /\ p = o)).
Proof.
  intros T V A Hi Ho Hn P. destruct (zset_obj t i (v, o) Hi) as (t' & E & L & G). exists t'.
  split; [exact E|]. split; [exact L|].
  assert (LL : length t' = length t) by (unfold zlen in L; lia).
  assert (M : forall j, obj_at t j <> 0 -> obj_at t' j <> 0).
  { intros j Hj. unfold obj_at in *. rewrite G. destruct (Z.eqb_spec j i); [exact V|exact Hj]. }
  assert (Z0 : forall w p, zget t i = Some (w, p) -> w = 0).
  { intros w p X. unfold obj_at in Ho. rewrite X in Ho. exact Ho. }
  split; [constructor|split].
  - rewrite L. apply T.
  - intros j w p X W. rewrite G in X. rewrite L, LL. destruct (Z.eqb_spec j i) as [->|N].
    + assert (w = v) as -> by congruence. exists n. split; [exact Hn|]. eapply path_mono; eauto.
    + destruct (t_path t T j w p X W) as (k & Hk & Pk). exists k. split; [exact Hk|]. eapply path_mono; eauto.
  - intros a b w p q X Y W. rewrite G in X, Y. destruct (Z.eqb_spec a i) as [->|Na], (Z.eqb_spec b i) as [->|Nb]; auto.
    + assert (w = v) as -> by congruence. exfalso. apply W. eapply A; eauto.
    + assert (w = v) as -> by congruence. exfalso. apply W. eapply A; eauto.
    + eapply (t_uniq t T); eauto.
  - rewrite (occupied_set t i (v, o) t' L G Hi Ho). cbn [fst]. destruct (Z.eqb_spec v 0); [contradiction|lia].
  - intros w p W. split.
    + intros [j X]. rewrite G in X. destruct (Z.eqb_spec j i) as [Ej|N]; [right; split; congruence|left; now exists j].
    + intros [[j X]|[-> ->]].
      * exists j. rewrite G. destruct (Z.eqb_spec j i) as [Ej|N]; [|exact X]. rewrite Ej in X. exfalso. apply W. eapply Z0; eauto.
      * exists i. rewrite G, Z.eqb_refl. reflexivity.
Qed.

(** ** Resizing *)
Lemma alloc_ok_tab n : 0 < n -> tab_ok (alloc_table n) /\ zlen (alloc_table n) = n /\ occupied (alloc_table n) = 0%nat /\
  forall v o, v <> 0 -> ~ maps (alloc_table n) v o.
Proof.
  intros Hn. unfold alloc_table.
  assert (Z0 : forall i e, zget (repeat (0, 0) (Z.to_nat n)) i = Some e -> e = (0, 0)).
  { intros i e E. rewrite zget_repeat in E. destruct ((0 <=? i) && (i <? Z.of_nat (Z.to_nat n))); congruence. }
  split; [constructor|split; [|split]].
  - rewrite zlen_repeat. lia.
  - intros i v o E V. apply Z0 in E. congruence.
  - intros i j v o p E _ V. apply Z0 in E. congruence.
  - rewrite zlen_repeat. lia.
  - unfold occupied. generalize (Z.to_nat n). clear. induction n as [|n IH]; [reflexivity|]. cbn. exact IH.
  - intros v o V [i E]. apply Z0 in E. congruence.
Qed.
Lemma rehash_ok : forall old t, tab_ok t -> (occupied t + length old < length t)%nat ->
  (forall i j v o p, zget old i = Some (v, o) -> zget old j = Some (v, p) -> v <> 0 -> i = j) ->
  (forall v o p, v <> 0 -> maps t v o -> ~ maps old v p) ->
  exists t', rehash old t = Ret t' /\ zlen t' = zlen t /\ tab_ok t' /\
    occupied t' = (occupied t + occupied old)%nat /\
    forall w p, w <> 0 -> (maps t' w p <-> maps t w p \/ maps old w p).
Proof.
  induction old as [|[v o] old IH]; intros t T C U D; cbn [rehash].
  - exists t. split; [reflexivity|]. split; [reflexivity|]. split; [exact T|]. split; [cbn; lia|].
    intros w p W. split; [auto|]. intros [H|[i E]]; [exact H|]. rewrite zget_none in E; [discriminate E|]. cbn. lia.
  - cbn [length] in C. assert (LT : 0 < zlen t) by apply T.
    destruct (occupied_lt t) as (e & He & Oe); [lia|].
    destruct (steps_reach (zlen t) (hash (zlen t) v) e) as (k & Hk & Ek); [now apply hash_range|exact He|].
    rewrite <- Ek in Oe.
    destruct (find_free_ok t LT k (length t) (hash (zlen t) v)) as (i & n & E & Hi & Oi & Hn & P);
      [now apply hash_range|unfold zlen in Hk; lia|exact Oe|].
    rewrite E. cbn [bind].
    assert (HD : zget ((v, o) :: old) 0 = Some (v, o)) by reflexivity.
    assert (TL : forall j w p, zget old j = Some (w, p) -> zget ((v, o) :: old) (j + 1) = Some (w, p)).
    { intros j w p X. assert (R := zget_range _ _ _ X). rewrite zget_cons. destruct (Z.eqb_spec (j + 1) 0); [lia|].
      replace (j + 1 - 1) with j by lia. exact X. }
    assert (U' : forall i j v o p, zget old i = Some (v, o) -> zget old j = Some (v, p) -> v <> 0 -> i = j).
    { intros a b w p q X Y W. apply TL in X, Y. specialize (U _ _ _ _ _ X Y W). lia. }
    destruct (Z.eq_dec v 0) as [->|V].
    + destruct (zset_obj t i (0, o) Hi) as (t1 & E1 & L1 & G1). rewrite E1. cbn [bind].
      assert (LL : length t1 = length t) by (unfold zlen in L1; lia).
      assert (OB : forall j, obj_at t1 j = obj_at t j).
      { intros j. unfold obj_at in *. rewrite G1. destruct (Z.eqb_spec j i) as [->|N]; [|reflexivity].
        symmetry. exact Oi. }
      assert (MP : forall w p, w <> 0 -> (maps t1 w p <-> maps t w p)).
      { intros w p W. split; intros [j X].
        - rewrite G1 in X. destruct (Z.eqb_spec j i) as [Ej|N]; [congruence|now exists j].
        - exists j. rewrite G1. destruct (Z.eqb_spec j i) as [Ej|N]; [|exact X]. rewrite Ej in X. unfold obj_at in Oi. rewrite X in Oi. contradiction. }
      assert (T1 : tab_ok t1).
      { constructor.
        - lia.
        - intros j w p X W. rewrite G1 in X. destruct (Z.eqb_spec j i) as [->|N]; [congruence|].
          destruct (t_path t T j w p X W) as (n1 & Hn1 & P1). exists n1. rewrite LL, L1. split; [exact Hn1|].
          eapply path_mono; eauto. intros j' Hj'. now rewrite OB.
        - intros a b w p q X Y W. rewrite G1 in X, Y.
          destruct (Z.eqb_spec a i); [congruence|]. destruct (Z.eqb_spec b i); [congruence|]. eapply (t_uniq t T); eauto. }
      assert (OC : occupied t1 = occupied t) by (rewrite (occupied_set t i (0, o) t1 L1 G1 Hi Oi); cbn; lia).
      destruct (IH t1 T1) as (t' & E' & L' & T' & O' & M'); [lia|exact U'| |].
      { intros w p q W X [j Y]. apply (D w p q W); [now apply MP|]. exists (j + 1). now apply TL. }
      exists t'. split; [exact E'|]. split; [lia|]. split; [exact T'|]. split; [rewrite O', OC; reflexivity|].
      intros w p W. rewrite M' by exact W. rewrite MP by exact W. split; (intros [H|[j H]]; [now left|right]).
      * exists (j + 1). now apply TL.
      * exists (j - 1). rewrite zget_cons in H. destruct (Z.eqb_spec j 0); [congruence|]. exact H.
    + assert (A : forall j p, zget t j = Some (v, p) -> v = 0).
      { intros j p X. destruct (Z.eq_dec v 0); [assumption|]. exfalso.
        apply (D v p o V); [now exists j|]. now exists 0. }
      destruct (insert_ok t i v o n T V A Hi Oi) as (t1 & E1 & L1 & T1 & O1 & M1); [unfold zlen in Hk; lia|exact P|].
      rewrite E1. cbn [bind]. assert (LL : length t1 = length t) by (unfold zlen in L1; lia).
      destruct (IH t1 T1) as (t' & E' & L' & T' & O' & M'); [lia|exact U'| |].
      { intros w p q W X [j Y]. apply M1 in X; [|exact W]. destruct X as [X|[-> ->]].
        - apply (D w p q W X). exists (j + 1). now apply TL.
        - pose proof (zget_range _ _ _ Y). specialize (U 0 (j + 1) v o q HD (TL _ _ _ Y) V). lia. }
      exists t'. split; [exact E'|]. split; [lia|]. split; [exact T'|]. split.
      { rewrite O', O1, occupied_cons. destruct (Z.eqb_spec v 0); [contradiction|]. lia. }
      intros w p W. rewrite M', M1 by exact W. split.
      * intros [[H|[-> ->]]|[j H]]; [now left|right; now exists 0|right]. exists (j + 1). now apply TL.
      * intros [H|[j H]]; [now left; left|]. rewrite zget_cons in H. destruct (Z.eqb_spec j 0).
        -- left; right. split; congruence.
        -- right. now exists (j - 1).
Qed.
Lemma resize_ok t : tab_ok t -> (occupied t < length t)%nat -> exists t', resize_table t = Ret t' /\ zlen t' = 2 * zlen t /\ tab_ok t' /\
  occupied t' = occupied t /\ forall w p, w <> 0 -> (maps t' w p <-> maps t w p).
Proof.
  intros T C. assert (LT : 0 < zlen t) by apply T. unfold resize_table.
  destruct (alloc_ok_tab (2 * zlen t)) as (T0 & L0 & O0 & M0); [lia|].
  destruct (rehash_ok t (alloc_table (2 * zlen t)) T0) as (t' & E & L & T' & O & M).
  - rewrite O0. unfold zlen in *. lia.
  - intros. eapply (t_uniq t T); eauto.
  - intros v o p V X. now apply M0 in X.
  - exists t'. split; [exact E|]. split; [lia|]. split; [exact T'|]. split; [lia|].
    intros w p W. rewrite M by exact W. split; [intros [H|H]; [now apply M0 in H|exact H]|auto].
Qed.

(** ** Searching a table that is not full *)
Lemma find_ok t v : tab_ok t -> (occupied t < length t)%nat -> v <> 0 ->
  (exists i o, find (length t) t (hash (zlen t) v) v = Ret (i, Some o) /\ maps t v o) \/
  (exists i, find (length t) t (hash (zlen t) v) v = Ret (i, None) /\ (forall o, ~ maps t v o) /\
     forall o, exists t', update_raw t i (v, o) = Ret t' /\ zlen t' = zlen t /\ tab_ok t' /\ occupied t' = S (occupied t) /\
       forall w p, w <> 0 -> (maps t' w p <-> maps t w p \/ (w = v /\ p = o))).
Proof.
  intros T C V. assert (LT : 0 < zlen t) by apply T.
  assert (D : (exists i o, zget t i = Some (v, o)) \/ forall i o, zget t i <> Some (v, o)).
  { destruct (existsb (fun e => fst e =? v) t) eqn:X.
    - apply existsb_exists in X. destruct X as ([w o] & I & E). apply Z.eqb_eq in E. cbn in E. subst w.
      apply In_zget in I. destruct I as [i I]. left. now exists i, o.
    - right. intros i o E. apply zget_In in E.
      assert (existsb (fun e => fst e =? v) t = true) as Y; [|congruence].
      apply existsb_exists. exists (v, o). split; [exact E|]. cbn. now apply Z.eqb_eq. }
  destruct D as [(i & o & E)|A].
  - left. exists i, o. destruct (t_path t T i v o E V) as (n & Hn & P).
    split; [|now exists i]. eapply find_present; eauto. now apply hash_range.
  - right. destruct (occupied_lt t C) as (e & He & Oe).
    destruct (steps_reach (zlen t) (hash (zlen t) v) e) as (k & Hk & Ek); [now apply hash_range|exact He|].
    rewrite <- Ek in Oe.
    assert (A' : forall i o, zget t i = Some (v, o) -> v = 0) by (intros i o X; exfalso; eapply A; eauto).
    destruct (find_absent t v LT A' V k (length t) (hash (zlen t) v)) as (i & n & E & Hi & Oi & Hn & P);
      [now apply hash_range|unfold zlen in Hk; lia|exact Oe|].
    exists i. split; [exact E|]. split; [intros o [j X]; eapply A; eauto|].
    intros o. apply (insert_ok t i v o n T V A' Hi Oi); [unfold zlen in Hk; lia|exact P].
Qed.
End T.
