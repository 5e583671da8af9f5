(** Facts about the Hashset model. *)
From Coq Require Import Sorting.Permutation.
From Verif Require Import Base ArrayLib Hash_Model Hash_Proofs Polyhash_Proofs Hashset_Model.

Section P.
Context {K : Type} (hashVal : K -> Z) (sameKey : K -> K -> bool).
Hypothesis same_refl : forall k, sameKey k k = true.
Hypothesis same_sym : forall k k', sameKey k k' = true -> sameKey k' k = true.
Hypothesis same_trans : forall k1 k2 k3, sameKey k1 k2 = true -> sameKey k2 k3 = true -> sameKey k1 k3 = true.
Hypothesis same_hash : forall k k', sameKey k k' = true -> hashVal k = hashVal k'.
Definition key (x : K) : K := x.
Notation inv := (@inv K K (fun x => x) hashVal sameKey).
Notation placed := (@placed K K (fun x => x) hashVal).

Lemma copy_bucket_spec p : 5 <= p -> forall (b : bucket K) na, zlen na = 2 ^ p -> placed na (2 ^ p) ->
  (forall c, In c b -> fst c = hashVal (snd c)) ->
  exists na', copy_bucket (2 ^ p) b na = Ret na' /\ zlen na' = 2 ^ p /\ placed na' (2 ^ p) /\
   Permutation (concat na') (b ++ concat na).
Proof.
  intros Hp. induction b as [|[h e] b IH]; intros na L Pl H; cbn [copy_bucket].
  - exists na. split; [reflexivity|]. split; [assumption|]. split; [assumption|]. apply Permutation_refl.
  - destruct (copy1_spec (fun x => x) hashVal p na h e Hp L Pl) as (na1 & -> & L1 & Pl1 & P1).
    { apply (H (h, e)). now left. }
    cbn [bind]. destruct (IH na1 L1 Pl1) as (na2 & -> & L2 & Pl2 & P2); [intros; apply H; now right|].
    exists na2. split; [reflexivity|]. split; [assumption|]. split; [assumption|].
    etransitivity; [exact P2|]. cbn [app]. etransitivity; [apply Permutation_app_head; exact P1|].
    apply Permutation_sym, Permutation_middle.
Qed.
Lemma grow_spec p : 5 <= p -> forall (a : list (bucket K)) na, zlen na = 2 ^ p -> placed na (2 ^ p) ->
  (forall b, In b a -> forall c, In c b -> fst c = hashVal (snd c)) ->
  exists na', fold_left (fun na b => do na <- na; copy_bucket (2 ^ p) b na) a (Ret na) = Ret na' /\
    zlen na' = 2 ^ p /\ placed na' (2 ^ p) /\ Permutation (concat na') (concat a ++ concat na).
Proof.
  intros Hp. induction a as [|b a IH]; intros na L Pl H; cbn [fold_left].
  - exists na. split; [reflexivity|]. split; [assumption|]. split; [assumption|]. apply Permutation_refl.
  - cbn [bind]. destruct (copy_bucket_spec p Hp b na L Pl) as (na1 & -> & L1 & Pl1 & P1); [apply H; now left|].
    destruct (IH na1 L1 Pl1) as (na2 & -> & L2 & Pl2 & P2); [intros b' Hb'; apply H; now right|].
    exists na2. split; [reflexivity|]. split; [assumption|]. split; [assumption|].
    etransitivity; [exact P2|]. cbn [concat]. rewrite <- app_assoc.
    etransitivity; [apply Permutation_app_head; exact P1|].
    rewrite !app_assoc. apply Permutation_app_tail, Permutation_app_comm.
Qed.
Lemma growTable_spec t m : inv t m -> n_items t <= bound -> exists t', growTable t = Ret t' /\ inv t' m.
Proof.
  intros I B. pose proof I as ([(p & Hp & L) Pl] & P & D & N). unfold growTable.
  rewrite Z.geb_leb. destruct (Z.leb_spec (zlen (arr t)) (n_items t)); [|eauto].
  assert (E2 : zlen (arr t) + zlen (arr t) = 2 ^ (p + 1)) by (rewrite L, Z.pow_add_r by lia; lia).
  assert (0 < zlen (arr t)) by (rewrite L; apply Z.pow_pos_nonneg; lia).
  assert (p + 1 <= 53).
  { destruct (Z_le_gt_dec (p + 1) 53); [assumption|]. assert (p = 53) by lia. subst p.
    change (2 ^ 53) with 9007199254740992 in L. unfold bound in B. lia. }
  unfold array, maxLen. unfold bound in B.
  destruct (Z.ltb_spec (zlen (arr t) + zlen (arr t)) 0); [lia|]. rewrite Z.gtb_ltb.
  destruct (Z.ltb_spec 18014398509481983 (zlen (arr t) + zlen (arr t))); [lia|]. cbn [orb bind].
  rewrite E2.
  destruct (grow_spec (p + 1) ltac:(lia) (arr t) (repeat [] (Z.to_nat (2 ^ (p + 1))))) as (na & E & L' & Pl' & P').
  - rewrite zlen_repeat. apply Z2Nat.id, Z.pow_nonneg. lia.
  - apply placed_empty.
  - intros b Hb c Hc. apply In_zget in Hb as (i & Hi). apply (Pl i b Hi c Hc).
  - rewrite E. cbn [bind]. eexists. split; [reflexivity|].
    split; [split; [exists (p + 1); cbn [arr]; split; [lia|assumption]|cbn [arr]; now rewrite L']|].
    cbn [arr n_items]. split; [|auto]. rewrite concat_repeat_nil, app_nil_r in P'. unfold entries.
    etransitivity; [apply Permutation_map; exact P'|]. exact P.
Qed.

Lemma add_spec t m k : inv t m -> n_items t < bound ->
  exists t', add hashVal sameKey t k = Ret t' /\ inv t' (m_insert (fun x => x) sameKey k m).
Proof. intros I B. unfold add. eapply (Hash_Proofs.insert_spec (fun x => x) hashVal sameKey); eauto using growTable_spec. Qed.

Lemma empty_spec fuel : (57 <= fuel)%nat -> exists t : table K, empty fuel = Ret t /\ inv t [].
Proof.
  intros Hf. unfold empty. destruct (roundUp_spec fuel 13) as (q & -> & Hq & Hn & Hl); [lia|assumption|].
  cbn [bind]. assert (q = 5). { destruct Hl as [->|Hl]; [reflexivity|]. assert (2 ^ 4 <= 2 ^ (q - 1)) by (apply Z.pow_le_mono_r; lia). lia. }
  subst q. change (array (2 ^ 5) (@nil (Z * K))) with (Ret (repeat (@nil (Z * K)) (Z.to_nat (2 ^ 5)))). cbn [bind].
  eexists. split; [reflexivity|]. apply (inv_empty (fun x => x) hashVal sameKey 5). lia.
Qed.

(** ** observers are functions of the entries *)
Lemma all_spec p (t : table K) : all p t = forallb p (entries (arr t)).
Proof.
  unfold all, entries. induction (arr t) as [|b a IH]; [reflexivity|]. cbn [forallb concat]. rewrite map_app, forallb_app, <- IH.
  f_equal. induction b as [|c b IHb]; cbn; [reflexivity|]. now rewrite IHb.
Qed.
Lemma exists_spec p (t : table K) : exists_ p t = existsb p (entries (arr t)).
Proof.
  unfold exists_, entries. induction (arr t) as [|b a IH]; [reflexivity|]. cbn [existsb concat]. rewrite map_app, existsb_app, <- IH.
  f_equal. induction b as [|c b IHb]; cbn; [reflexivity|]. now rewrite IHb.
Qed.
Lemma forallb_perm {B} (p : B -> bool) l l' : Permutation l l' -> forallb p l = forallb p l'.
Proof. induction 1; cbn; try congruence. now rewrite !andb_assoc, (andb_comm (p y)). Qed.
Lemma existsb_perm {B} (p : B -> bool) l l' : Permutation l l' -> existsb p l = existsb p l'.
Proof. induction 1; cbn; try congruence. now rewrite !orb_assoc, (orb_comm (p y)). Qed.

Lemma loop_spec {B} (f : K -> B -> B) (b : bucket K) : forall r, loop f b r = fold_left (fun r k => f k r) (List.map snd b) r.
Proof. induction b as [|[h k] b IH]; intros r; cbn; auto. Qed.
Lemma fold_spec {B} (f : K -> B -> B) e (t : table K) : exists l, Permutation l (entries (arr t)) /\
  fold f e t = fold_left (fun r k => f k r) l e.
Proof.
  unfold fold, entries. induction (arr t) as [|b a (l & P & E)]; [exists []; split; [constructor|reflexivity]|].
  exists (l ++ List.map snd b). cbn [fold_right concat]. rewrite map_app. split.
  - etransitivity; [apply Permutation_app_comm|]. now apply Permutation_app_head.
  - rewrite fold_left_app, <- E. apply loop_spec.
Qed.
Lemma listItems_spec (t : table K) : Permutation (listItems t) (entries (arr t)).
Proof.
  destruct (fold_spec cons [] t) as (l & P & E). unfold fold in E. unfold listItems. rewrite E.
  assert (H : forall (l r : list K), Permutation (fold_left (fun r k => k :: r) l r) (l ++ r)).
  { clear. induction l as [|x l IH]; intros r; cbn; [apply Permutation_refl|]. etransitivity; [apply IH|].
    apply Permutation_sym, Permutation_middle. }
  etransitivity; [apply H|]. now rewrite app_nil_r.
Qed.
Lemma app_spec {S} (f : K -> S -> S) (t : table K) s :
  app f t s = fold_left (fun s k => f k s) (entries (arr t)) s.
Proof.
  unfold app, entries. revert s. induction (arr t) as [|b a IH]; intros s; [reflexivity|].
  cbn [fold_left concat]. rewrite map_app, fold_left_app, <- IH. f_equal.
  revert s. induction b as [|c b IHb]; intros s; cbn; auto.
Qed.

Lemma loopb_spec p (b : bucket K) : match loopb p b with
  | Some k => In k (List.map snd b) /\ p k = true
  | None => forall k, In k (List.map snd b) -> p k = false end.
Proof.
  induction b as [|[h k] b IH]; cbn; [intros k []|]. destruct (p k) eqn:E; [auto|].
  destruct (loopb p b); [destruct IH; auto|]. intros k' [<-|H]; auto.
Qed.
Lemma loopf_spec p (a : list (bucket K)) : forall fuel i, -1 <= i < zlen a -> i + 1 < Z.of_nat fuel ->
  exists r, loopf fuel p a i = Ret r /\
   match r with
   | Some k => In k (List.map snd (concat (ztake (i + 1) a))) /\ p k = true
   | None => forall k, In k (List.map snd (concat (ztake (i + 1) a))) -> p k = false end.
Proof.
  induction fuel as [|fuel IH]; intros i Hi Hf; [lia|]. cbn [loopf].
  destruct (Z.ltb_spec i 0).
  - exists None. split; [reflexivity|]. replace (i + 1) with 0 by lia. rewrite ztake_0. intros k [].
  - destruct (zget_some a i) as [b G]; [lia|]. unfold sub_chk. rewrite G. cbn [bind].
    rewrite (ztake_S _ _ _ G), concat_app, map_app. cbn [concat]. rewrite app_nil_r.
    pose proof (loopb_spec p b) as LB. destruct (loopb p b) as [k|].
    + exists (Some k). split; [reflexivity|]. destruct LB. split; [apply in_or_app; now right|assumption].
    + destruct (IH (i - 1)) as (r & E & S); try lia. replace (i - 1 + 1) with i in S by lia.
      exists r. split; [exact E|]. destruct r as [k|].
      * destruct S. split; [apply in_or_app; now left|assumption].
      * intros k Hk. apply in_app_iff in Hk as []; auto.
Qed.
Lemma find_spec p t m : inv t m -> exists r, find p t = Ret r /\
   match r with Some k => In k m /\ p k = true | None => forall k, In k m -> p k = false end.
Proof.
  intros (G & P & D & N). unfold find.
  destruct (loopf_spec p (arr t) (S (length (arr t))) (zlen (arr t) - 1)) as (r & E & S).
  - pose proof (zlen_nonneg (arr t)). lia.
  - unfold zlen. lia.
  - exists r. split; [exact E|]. replace (zlen (arr t) - 1 + 1) with (zlen (arr t)) in S by lia. rewrite ztake_all in S.
    fold (entries (arr t)) in S. destruct r as [k|].
    + destruct S. split; [eapply Permutation_in; eauto|assumption].
    + intros k Hk. apply S. eapply Permutation_in; [apply Permutation_sym; eassumption|assumption].
Qed.

(** ** hash *)
Definition sum_hash (m : list K) : Z := fold_right Z.add 0 (List.map hashVal m).
Lemma hash_loop_spec (b : bucket K) : (forall c, In c b -> fst c = hashVal (snd c)) -> forall r,
  0 <= r < two63 -> hash_loop b r = (sum_hash (List.map snd b) + r) mod two63.
Proof.
  unfold sum_hash. induction b as [|[h k] b IH]; intros H r Hr; cbn [hash_loop List.map fold_right].
  - rewrite Z.add_0_l. symmetry. now apply Z.mod_small.
  - rewrite IH; [|intros; apply H; now right|apply Z.mod_pos_bound; reflexivity].
    rewrite Zplus_mod_idemp_r. pose proof (H (h, k) (or_introl eq_refl)) as Hk. cbn [fst snd] in Hk |- *. rewrite Hk. f_equal. lia.
Qed.
Lemma sum_hash_perm m m' : Permutation m m' -> sum_hash m = sum_hash m'.
Proof. unfold sum_hash. induction 1; cbn; lia. Qed.
Lemma sum_hash_app m m' : sum_hash (m ++ m') = sum_hash m + sum_hash m'.
Proof. unfold sum_hash. induction m; cbn; lia. Qed.
Lemma hash_spec t m : inv t m -> hash t = sum_hash m mod two63.
Proof.
  intros ([_ Pl] & P & D & N). rewrite <- (sum_hash_perm _ _ P). unfold hash, entries.
  assert (H : forall b, In b (arr t) -> forall c, In c b -> fst c = hashVal (snd c)).
  { intros b Hb c Hc. apply In_zget in Hb as (i & Hi). apply (Pl i b Hi c Hc). }
  clear Pl P D N. induction (arr t) as [|b a IH]; [reflexivity|]. cbn [fold_right concat].
  rewrite IH by (intros b' Hb'; apply H; now right).
  rewrite hash_loop_spec; [|apply H; now left|apply Z.mod_pos_bound; reflexivity].
  rewrite Zplus_mod_idemp_r, map_app, sum_hash_app. reflexivity.
Qed.

(** ** subset: the size test never changes the answer *)
Lemma pigeon m1 : forall m2, distinct (fun x => x) sameKey m1 -> (forall x, In x m1 -> exists y, In y m2 /\ sameKey x y = true) ->
  (length m1 <= length m2)%nat.
Proof.
  induction m1 as [|x m1 IH]; intros m2 D H; [cbn; lia|]. apply distinct_cons in D as [F D].
  destruct (H x) as (y & Hy & S); [now left|]. apply in_split in Hy as (l1 & l2 & ->).
  rewrite app_length. cbn [length]. enough (length m1 <= length (l1 ++ l2))%nat by (rewrite app_length in *; lia).
  apply IH; [assumption|]. intros z Hz. destruct (H z) as (w & Hw & Sw); [now right|].
  exists w. split; [|assumption]. apply in_app_iff in Hw. apply in_app_iff. destruct Hw as [|[<-|]]; auto.
  exfalso. rewrite Forall_forall in F. specialize (F z Hz).
  rewrite (same_trans x y z) in F; [discriminate|assumption|now apply same_sym].
Qed.
Lemma isSubset_spec t1 m1 t2 m2 : inv t1 m1 -> inv t2 m2 ->
  (isSubset sameKey t1 t2 = true <-> forall x, In x m1 -> exists y, In y m2 /\ sameKey x y = true).
Proof.
  intros (_ & P1 & D1 & N1) (_ & P2 & D2 & N2). unfold isSubset.
  rewrite all_spec, (forallb_perm _ _ _ P1), andb_true_iff, forallb_forall, Z.leb_le, N1, N2.
  split.
  - intros [_ H] x Hx. specialize (H x Hx). rewrite exists_spec, (existsb_perm _ _ _ P2) in H.
    now apply existsb_exists in H.
  - intros H. split; [apply inj_le; apply pigeon; assumption|].
    intros x Hx. rewrite exists_spec, (existsb_perm _ _ _ P2). apply existsb_exists. auto.
Qed.
Lemma equal_spec t1 m1 t2 m2 : inv t1 m1 -> inv t2 m2 ->
  (equal sameKey t1 t2 = true <-> (forall x, In x m1 -> exists y, In y m2 /\ sameKey x y = true) /\
                                  (forall x, In x m2 -> exists y, In y m1 /\ sameKey x y = true)).
Proof.
  intros I1 I2. unfold equal. rewrite !andb_true_iff, (isSubset_spec _ _ _ _ I1 I2), (isSubset_spec _ _ _ _ I2 I1).
  split; [tauto|]. intros [H1 H2]. split; [|tauto]. apply Z.eqb_eq.
  destruct I1 as (_ & _ & D1 & N1), I2 as (_ & _ & D2 & N2). rewrite N1, N2.
  pose proof (pigeon _ _ D1 H1). pose proof (pigeon _ _ D2 H2). lia.
Qed.
Lemma copy_spec t m : inv t m -> copy t = Ret t.
Proof.
  intros ([(p & Hp & L) _] & _). unfold copy, array, maxLen.
  assert (0 < 2 ^ p) by (apply Z.pow_pos_nonneg; lia).
  assert (2 ^ p <= 2 ^ 53) by (apply Z.pow_le_mono_r; lia). change (2 ^ 53) with 9007199254740992 in *. rewrite <- L in *.
  destruct (Z.ltb_spec (zlen (arr t)) 0); [lia|]. rewrite Z.gtb_ltb. destruct (Z.ltb_spec 18014398509481983 (zlen (arr t))); [lia|].
  cbn [orb bind]. now destruct t.
Qed.
End P.
