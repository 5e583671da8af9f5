(** Facts about the Polyhash model. *)
From Coq Require Import Sorting.Permutation.
From Verif Require Import Base ArrayLib Hash_Model Hash_Proofs Polyhash_Model.

Lemma zlen_nil {B} : zlen (@nil B) = 0.
Proof. reflexivity. Qed.
(** the first i elements *)
Definition ztake {B} (i : Z) (l : list B) : list B := firstn (Z.to_nat i) l.
Lemma ztake_0 {B} (l : list B) : ztake 0 l = [].
Proof. reflexivity. Qed.
Lemma ztake_all {B} (l : list B) : ztake (zlen l) l = l.
Proof. unfold ztake, zlen. rewrite Nat2Z.id. apply firstn_all. Qed.
Lemma ztake_S {B} (l : list B) i b : zget l i = Some b -> ztake (i + 1) l = ztake i l ++ [b].
Proof.
  intros H. pose proof (zget_range _ _ _ H). unfold zget in H. destruct (Z.ltb_spec i 0); [lia|].
  unfold ztake. replace (Z.to_nat (i + 1)) with (S (Z.to_nat i)) by lia.
  set (n := Z.to_nat i) in *. clearbody n. clear -H. revert l H. induction n as [|n IH]; intros [|x l] H; try discriminate.
  - injection H as ->. reflexivity.
  - cbn [firstn app]. f_equal. now apply IH.
Qed.
Lemma zlen_ztake {B} (l : list B) i : 0 <= i <= zlen l -> zlen (ztake i l) = i.
Proof. intros H. unfold ztake, zlen in *. rewrite firstn_length. lia. Qed.
Lemma zget_ztake {B} (l : list B) i j : 0 <= j < i -> zget (ztake i l) j = zget l j.
Proof.
  intros H. unfold zget. destruct (Z.ltb_spec j 0); [reflexivity|]. unfold ztake.
  assert (H1 : (Z.to_nat j < Z.to_nat i)%nat) by lia.
  set (n := Z.to_nat i) in *. set (m := Z.to_nat j) in *. clearbody n m. clear -H1.
  revert l m H1. induction n as [|n IH]; intros l m H1; [lia|]. destruct l; [now destruct m|].
  destruct m; [reflexivity|]. cbn. apply IH. lia.
Qed.

(** filling a fresh array from the left *)
Lemma fill_left {B C} (g : B -> C) (a : list B) (na : list C) i : zlen na = zlen a -> 0 <= i < zlen a ->
  (forall j, 0 <= j < i -> zget na j = option_map g (zget a j)) ->
  forall b, zget a i = Some b -> exists na', update_chk na i (g b) = Ret na' /\ zlen na' = zlen a /\
   (forall j, 0 <= j < i + 1 -> zget na' j = option_map g (zget a j)).
Proof.
  intros L Hi Hf b Hb. destruct (zset_some na i (g b)) as (na' & E & L' & G); [lia|].
  exists na'. unfold update_chk. rewrite E. split; [reflexivity|]. split; [lia|]. intros j Hj. rewrite G.
  destruct (Z.eqb_spec j i) as [->|]; [now rewrite Hb|]. apply Hf. lia.
Qed.
Lemma filled {B C} (g : B -> C) (a : list B) (na : list C) : zlen na = zlen a ->
  (forall j, 0 <= j < zlen a -> zget na j = option_map g (zget a j)) -> na = List.map g a.
Proof.
  intros L H. apply list_ext. intros j. destruct (Z_lt_dec j 0) as [|]; [|destruct (Z_lt_dec j (zlen a))].
  - unfold zget. destruct (Z.ltb_spec j 0); [reflexivity|lia].
  - rewrite H by lia. unfold zget. destruct (Z.ltb_spec j 0); [lia|]. now rewrite nth_error_map.
  - rewrite !zget_none; auto; unfold zlen; rewrite ?map_length; unfold zlen in *; lia.
Qed.

Section P.
Context {K V : Type} (hashVal : K -> Z) (sameKey : K -> K -> bool) (not_found : exn).
Hypothesis same_refl : forall k, sameKey k k = true.
Hypothesis same_sym : forall k k', sameKey k k' = true -> sameKey k' k = true.
Hypothesis same_trans : forall k1 k2 k3, sameKey k1 k2 = true -> sameKey k2 k3 = true -> sameKey k1 k3 = true.
Hypothesis same_hash : forall k k', sameKey k k' = true -> hashVal k = hashVal k'.
Notation entry := (K * V)%type.
Notation inv := (@inv K entry fst hashVal sameKey).
Notation placed := (@placed K entry fst hashVal).

Definition bound : Z := 9007199254740991.

Lemma mkTable_spec fuel hint : (57 <= fuel)%nat -> hint <= 2 ^ 53 -> exists t : table entry, mkTable fuel hint = Ret t /\ inv t [].
Proof.
  intros Hf Hh. unfold mkTable. destruct (roundUp_spec fuel hint) as (q & -> & Hq & Hn & Hl); [lia|assumption|].
  cbn [bind].
  assert (q <= 53).
  { destruct Hl as [->|Hl]; [lia|]. destruct (Z_le_gt_dec q 53); [assumption|].
    assert (2 ^ 53 <= 2 ^ (q - 1)) by (apply Z.pow_le_mono_r; lia). lia. }
  assert (2 ^ q <= 2 ^ 53) by (apply Z.pow_le_mono_r; lia).
  assert (0 < 2 ^ q) by (apply Z.pow_pos_nonneg; lia).
  unfold array, maxLen. change (2 ^ 53) with 9007199254740992 in *.
  destruct (Z.ltb_spec (2 ^ q) 0); [lia|]. rewrite Z.gtb_ltb. destruct (Z.ltb_spec 18014398509481983 (2 ^ q)); [lia|].
  cbn [orb bind]. eexists. split; [reflexivity|]. apply inv_empty. lia.
Qed.

Lemma copy_bucket_spec p : 5 <= p -> forall (b : bucket entry) na, zlen na = 2 ^ p -> placed na (2 ^ p) ->
  (forall c, In c b -> fst c = hashVal (fst (snd c))) ->
  exists na', copy_bucket (2 ^ p) b na = (na', None) /\ zlen na' = 2 ^ p /\ placed na' (2 ^ p) /\
   Permutation (concat na') (b ++ concat na).
Proof.
  intros Hp. induction b as [|[h e] b IH]; intros na L Pl H; cbn [copy_bucket].
  - exists na. split; [reflexivity|]. split; [assumption|]. split; [assumption|]. apply Permutation_refl.
  - destruct (copy1_spec fst hashVal p na h e Hp L Pl) as (na1 & -> & L1 & Pl1 & P1).
    { apply (H (h, e)). now left. }
    destruct (IH na1 L1 Pl1) as (na2 & -> & L2 & Pl2 & P2); [intros; apply H; now right|].
    exists na2. split; [reflexivity|]. split; [assumption|]. split; [assumption|].
    etransitivity; [exact P2|]. cbn [app]. etransitivity; [apply Permutation_app_head; exact P1|].
    apply Permutation_sym, Permutation_middle.
Qed.
Lemma grow_bucket_spec p (a : list (bucket entry)) : 5 <= p ->
  (forall i b, zget a i = Some b -> forall c, In c b -> fst c = hashVal (fst (snd c))) ->
  forall fuel n na, 0 <= n <= zlen a -> zlen a - n < Z.of_nat fuel -> zlen na = 2 ^ p -> placed na (2 ^ p) ->
  Permutation (concat na) (concat (ztake n a)) ->
  exists na', grow_bucket fuel a (2 ^ p) n na = Ret na' /\ zlen na' = 2 ^ p /\ placed na' (2 ^ p) /\
   Permutation (concat na') (concat a).
Proof.
  intros Hp Ha. induction fuel as [|fuel IH]; intros n na Hn Hf L Pl P; [lia|]. cbn [grow_bucket].
  unfold sub_chk. destruct (zget a n) as [b|] eqn:G.
  - pose proof (zget_range _ _ _ G). destruct (copy_bucket_spec p Hp b na L Pl (Ha n b G)) as (na1 & -> & L1 & Pl1 & P1).
    apply IH; auto; try lia. rewrite (ztake_S _ _ _ G), concat_app. cbn [concat]. rewrite app_nil_r.
    etransitivity; [exact P1|]. etransitivity; [apply Permutation_app_comm|]. now apply Permutation_app_tail.
  - assert (n = zlen a). { destruct (Z.eq_dec n (zlen a)); [assumption|]. destruct (zget_some a n) as [b Hb]; [lia|congruence]. }
    subst n. rewrite ztake_all in P. exists na. auto.
Qed.

Lemma growTable_spec t m : inv t m -> n_items t <= bound -> exists t', growTable t = Ret t' /\ inv t' m.
Proof.
  intros I B. pose proof I as ([(p & Hp & L) Pl] & P & D & N). unfold growTable.
  rewrite Z.geb_leb. destruct (Z.leb_spec (zlen (arr t)) (n_items t)); [|eauto].
  assert (E2 : zlen (arr t) + zlen (arr t) = 2 ^ (p + 1)) by (rewrite L, Z.pow_add_r by lia; lia).
  assert (0 < zlen (arr t)) by (rewrite L; apply Z.pow_pos_nonneg; lia).
  assert (p + 1 <= 53).
  { destruct (Z_le_gt_dec (p + 1) 53); [assumption|]. assert (p = 53) by lia. subst p.
    change (2 ^ 53) with 9007199254740992 in L. unfold bound in B. lia. }
  unfold array, maxLen. unfold bound in B.
  destruct (Z.ltb_spec (zlen (arr t) + zlen (arr t)) 0); [lia|]. rewrite Z.gtb_ltb.
  destruct (Z.ltb_spec 18014398509481983 (zlen (arr t) + zlen (arr t))); [lia|]. cbn [orb bind].
  rewrite E2.
  destruct (grow_bucket_spec (p + 1) (arr t) ltac:(lia) (fun i b G c => bucket_cells fst hashVal (arr t) i b c Pl G)
     (S (length (arr t))) 0 (repeat [] (Z.to_nat (2 ^ (p + 1))))) as (na & -> & L' & Pl' & P').
  - pose proof (zlen_nonneg (arr t)). lia.
  - unfold zlen. lia.
  - rewrite zlen_repeat. apply Z2Nat.id, Z.pow_nonneg. lia.
  - apply placed_empty.
  - rewrite ztake_0, concat_repeat_nil. constructor.
  - cbn [bind]. eexists. split; [reflexivity|]. split; [split; [exists (p + 1); cbn [arr]; split; [lia|assumption]|cbn [arr]; now rewrite L']|].
    cbn [arr n_items]. split; [|auto]. unfold entries. etransitivity; [apply Permutation_map; exact P'|]. exact P.
Qed.

Lemma insert_spec t m k v : inv t m -> n_items t < bound ->
  exists t', insert hashVal sameKey t k v = Ret t' /\ inv t' (m_insert fst sameKey (k, v) m).
Proof.
  intros I B. eapply (Hash_Proofs.insert_spec fst hashVal sameKey); eauto using growTable_spec.
Qed.


Lemma look_peekInsert_spec t m k v b (I : inv t m) : n_items t < bound ->
  match look fst sameKey (hashVal k) k b with
  | Some e => look_peekInsert sameKey t (hashVal k) (index (hashVal k) (zlen (arr t))) k v b = Ret (Some (snd e), t)
  | None => m_find fst sameKey k m = None ->
    exists t', look_peekInsert sameKey t (hashVal k) (index (hashVal k) (zlen (arr t))) k v b = Ret (None, t')
      /\ inv t' (m_insert fst sameKey (k, v) m)
  end.
Proof.
  intros B. induction b as [|[h [k' v']] b IH]; cbn [look look_peekInsert fst].
  - intros F. destruct (insert_new_inv fst hashVal sameKey same_refl same_sym same_trans same_hash growTable bound growTable_spec t m k (k, v) _ I eq_refl eq_refl F B)
      as (b & Es & a & Eu & t' & Eg & I'). cbn [fst] in Es, Eu. rewrite Es. cbn [bind]. rewrite Eu. cbn [bind]. rewrite Eg. cbn [bind]. eauto.
  - destruct ((hashVal k =? h) && sameKey k k'); [reflexivity|exact IH].
Qed.
Lemma peekInsert_spec t m k v : inv t m -> n_items t < bound ->
  exists t', peekInsert hashVal sameKey t k v = Ret (option_map snd (m_find fst sameKey k m), t') /\
    inv t' (match m_find fst sameKey k m with Some _ => m | None => (k, v) :: m end).
Proof.
  intros I B. pose proof (lookup_spec fst hashVal sameKey same_refl same_sym same_trans same_hash t m k I) as LS.
  pose proof I as (G & _). unfold lookup in LS. unfold peekInsert.
  destruct (bucket_exists fst hashVal sameKey same_refl same_sym same_trans same_hash (arr t) k G) as (b & Eb & Gb). rewrite Eb in LS |- *. cbn [bind] in LS |- *.
  injection LS as LS. pose proof (look_peekInsert_spec t m k v b I B) as LP. rewrite LS in LP.
  destruct (m_find fst sameKey k m) as [e|] eqn:F.
  - rewrite LP. exists t. split; [reflexivity|assumption].
  - destruct (LP eq_refl) as (t' & -> & I'). exists t'. split; [reflexivity|].
    unfold m_insert in I'. cbn [fst] in I'. rewrite m_remove_absent in I'; [assumption|]. now apply m_find_None.
Qed.

(** ** listing *)
Lemma list_g_spec (b : bucket entry) : forall l n, list_g b l n = (rev (List.map snd b) ++ l, n - zlen b).
Proof.
  induction b as [|[h [k v]] b IH]; intros l n; cbn [list_g List.map rev app]; [rewrite zlen_nil; f_equal; lia|].
  rewrite IH, zlen_cons, <- app_assoc. cbn [app snd]. f_equal. lia.
Qed.
Lemma list_f_spec (a : list (bucket entry)) : forall fuel i l n, -1 <= i < zlen a -> i + 1 < Z.of_nat fuel ->
  n = zlen (concat (ztake (i + 1) a)) ->
  exists l', list_f fuel a i l n = Ret (l' ++ l) /\ Permutation l' (List.map snd (concat (ztake (i + 1) a))).
Proof.
  induction fuel as [|fuel IH]; intros i l n Hi Hf Hn; [lia|]. cbn [list_f].
  destruct (Z.eqb_spec n 0) as [->|].
  - destruct (concat (ztake (i + 1) a)) as [|c r]; [exists []; split; [reflexivity|constructor]|].
    rewrite zlen_cons in Hn. pose proof (zlen_nonneg r). lia.
  - destruct (Z.eqb_spec i (-1)) as [->|].
    + change (-1 + 1) with 0 in Hn. rewrite ztake_0 in Hn. cbn in Hn. lia.
    + destruct (zget_some a i) as [b G]; [lia|]. unfold sub_chk. rewrite G. cbn [bind]. rewrite list_g_spec.
      rewrite (ztake_S _ _ _ G), concat_app in Hn |- *. cbn [concat] in Hn |- *. rewrite app_nil_r in Hn |- *.
      rewrite zlen_app in Hn.
      destruct (IH (i - 1) (rev (List.map snd b) ++ l) (n - zlen b)) as (l' & E & P); try lia.
      { replace (i - 1 + 1) with i by lia. lia. }
      replace (i - 1 + 1) with i in P by lia. rewrite E. exists (l' ++ rev (List.map snd b)).
      split; [now rewrite app_assoc|]. rewrite map_app. apply Permutation_app; [assumption|].
      apply Permutation_sym, Permutation_rev.
Qed.
Lemma listItems_spec t m : inv t m -> exists l, listItems t = Ret l /\ Permutation l m.
Proof.
  intros (G & P & D & N). unfold listItems.
  assert (N' : n_items t = zlen (concat (arr t))).
  { rewrite N. apply Permutation_length in P. unfold entries in P. rewrite map_length in P. unfold zlen. lia. }
  destruct (list_f_spec (arr t) (S (length (arr t))) (zlen (arr t) - 1) [] (n_items t)) as (l & E & P').
  - pose proof (zlen_nonneg (arr t)). lia.
  - unfold zlen. lia.
  - replace (zlen (arr t) - 1 + 1) with (zlen (arr t)) by lia. now rewrite ztake_all.
  - replace (zlen (arr t) - 1 + 1) with (zlen (arr t)) in P' by lia. rewrite ztake_all in P'.
    exists l. rewrite E, app_nil_r. split; [reflexivity|]. etransitivity; eauto.
Qed.

(** ** apply *)
Lemma appF_spec {S} (f : K -> V -> S -> S) (b : bucket entry) : forall s,
  appF f b s = fold_left (fun s e => f (fst e) (snd e) s) (List.map snd b) s.
Proof. induction b as [|[h [k v]] b IH]; intros s; cbn; auto. Qed.
Lemma apply_spec {S} (f : K -> V -> S -> S) t m s : inv t m ->
  exists l, Permutation l m /\ apply f t s = Ret (fold_left (fun s e => f (fst e) (snd e) s) l s).
Proof.
  intros (G & P & D & N). exists (entries (arr t)). split; [assumption|]. unfold apply.
  destruct (for_up_inv (fun i s' => s' = fold_left (fun s e => f (fst e) (snd e) s) (entries (ztake i (arr t))) s)
     (zlen (arr t)) (fun i s => do b <- sub_chk (arr t) i; Ret (appF f b s)) (Datatypes.S (length (arr t))) 0 s) as (s' & E & Es).
  - intros i s1 Hi ->. destruct (zget_some (arr t) i) as [b Gb]; [lia|]. unfold sub_chk. rewrite Gb. cbn [bind].
    eexists. split; [reflexivity|]. rewrite (ztake_S _ _ _ Gb). unfold entries. rewrite concat_app, map_app, fold_left_app.
    cbn [concat]. rewrite app_nil_r. apply appF_spec.
  - pose proof (zlen_nonneg (arr t)). lia.
  - unfold zlen. lia.
  - reflexivity.
  - rewrite E, Es, ztake_all. reflexivity.
Qed.

(** ** bucketSizes *)
Lemma sizes_f_spec (a : list (bucket entry)) : forall fuel i l, -1 <= i < zlen a -> i + 1 < Z.of_nat fuel ->
  sizes_f fuel a i l = Ret (List.map (fun b => zlen b) (ztake (i + 1) a) ++ l).
Proof.
  induction fuel as [|fuel IH]; intros i l Hi Hf; [lia|]. cbn [sizes_f].
  destruct (Z.eqb_spec i (-1)) as [->|]; [reflexivity|].
  destruct (zget_some a i) as [b G]; [lia|]. unfold sub_chk. rewrite G. cbn [bind].
  rewrite IH by lia. replace (i - 1 + 1) with i by lia. rewrite (ztake_S _ _ _ G), map_app, <- app_assoc. reflexivity.
Qed.
Lemma sum_sizes (a : list (bucket entry)) : fold_right Z.add 0 (List.map (fun b => zlen b) a) = zlen (concat a).
Proof. induction a as [|b a IH]; cbn [List.map fold_right concat]; [reflexivity|]. rewrite IH, zlen_app. reflexivity. Qed.
Lemma bucketSizes_spec t m : inv t m -> exists l, bucketSizes t = Ret l /\ fold_right Z.add 0 l = Z.of_nat (length m) /\
  zlen l = zlen (arr t) /\ Forall (fun n => 0 <= n) l.
Proof.
  intros (G & P & D & N). unfold bucketSizes. rewrite sizes_f_spec; [|pose proof (zlen_nonneg (arr t)); lia|unfold zlen; lia].
  eexists. split; [reflexivity|]. replace (zlen (arr t) - 1 + 1) with (zlen (arr t)) by lia. rewrite ztake_all, app_nil_r.
  split; [|split].
  - rewrite sum_sizes. apply Permutation_length in P. unfold entries in P. rewrite map_length in P. unfold zlen. lia.
  - unfold zlen. now rewrite map_length.
  - apply Forall_forall. intros n Hn. apply in_map_iff in Hn as (b & <- & _). apply zlen_nonneg.
Qed.

(** ** filter *)
Lemma filterP_spec p (b : bucket entry) : forall n,
  filterP p b n = (List.filter (fun c => p (fst (snd c)) (snd (snd c))) b,
                   n - zlen b + zlen (List.filter (fun c => p (fst (snd c)) (snd (snd c))) b)).
Proof.
  induction b as [|[h [k v]] b IH]; intros n; cbn [filterP List.filter fst snd]; [rewrite zlen_nil; f_equal; lia|].
  destruct (p k v); rewrite IH, !zlen_cons; f_equal; lia.
Qed.
Lemma map_snd_filter p (b : bucket entry) : List.map snd (List.filter (fun c => p (snd c)) b) = List.filter p (List.map snd b).
Proof. induction b as [|c b IH]; cbn; [reflexivity|]. destruct (p (snd c)); cbn; now rewrite IH. Qed.
Lemma concat_map_filter (p : Z * entry -> bool) (a : list (bucket entry)) : concat (List.map (List.filter p) a) = List.filter p (concat a).
Proof. induction a as [|b a IH]; cbn; [reflexivity|]. now rewrite filter_app, IH. Qed.
Lemma filter_perm {B} (p : B -> bool) l l' : Permutation l l' -> Permutation (List.filter p l) (List.filter p l').
Proof.
  induction 1 as [|x l l' H IH|x y l|l1 l2 l3 H1 IH1 H2 IH2]; cbn; auto.
  - destruct (p x); auto.
  - destruct (p x), (p y); auto. constructor.
  - etransitivity; eauto.
Qed.
Lemma update_skipn {B} (a : list B) i b b' : zget a i = Some b -> forall f : B -> B, b' = f b ->
  zset (List.map f (ztake i a) ++ skipn (Z.to_nat i) a) i b' =
   Some (List.map f (ztake (i + 1) a) ++ skipn (Z.to_nat (i + 1)) a) /\
  zget (List.map f (ztake i a) ++ skipn (Z.to_nat i) a) i = Some b.
Proof.
  intros G f ->. pose proof (zget_range _ _ _ G) as R.
  assert (LT : zlen (List.map f (ztake i a)) = i) by (unfold zlen; rewrite map_length; apply zlen_ztake; lia).
  assert (S1 : skipn (Z.to_nat i) a = b :: skipn (Z.to_nat (i + 1)) a).
  { unfold zget in G. destruct (Z.ltb_spec i 0); [lia|]. replace (Z.to_nat (i + 1)) with (S (Z.to_nat i)) by lia.
    set (n := Z.to_nat i) in *. clearbody n. clear -G. revert a G. induction n as [|n IH]; intros [|x a] G; try discriminate.
    - injection G as ->. reflexivity.
    - apply IH in G. exact G. }
  rewrite S1. split.
  - assert (Gm : zget (List.map f (ztake i a) ++ b :: skipn (Z.to_nat (i + 1)) a) i = Some b).
    { pose proof (zget_mid (List.map f (ztake i a)) (skipn (Z.to_nat (i + 1)) a) b) as M. now rewrite LT in M. }
    rewrite (ztake_S _ _ _ G), map_app, <- app_assoc. cbn [List.map app].
    unfold zset. rewrite zlen_app, zlen_cons, LT. pose proof (zlen_nonneg (skipn (Z.to_nat (i + 1)) a)).
    destruct (Z.ltb_spec i 0); [lia|]. destruct (Z.leb_spec (i + (1 + zlen (skipn (Z.to_nat (i + 1)) a))) i); [lia|].
    cbn [orb]. f_equal. apply upd_middle. unfold zlen in LT. lia.
  - pose proof (zget_mid (List.map f (ztake i a)) (skipn (Z.to_nat (i + 1)) a) b) as M. now rewrite LT in M.
Qed.
Lemma filter_spec p t m : inv t m -> exists t', filter p t = Ret t' /\ inv t' (List.filter (fun e => p (fst e) (snd e)) m).
Proof.
  intros (G & P & D & N). unfold filter. pose (q := fun c : Z * entry => p (fst (snd c)) (snd (snd c))).
  destruct (for_up_inv (fun i t' => arr t' = List.map (List.filter q) (ztake i (arr t)) ++ skipn (Z.to_nat i) (arr t) /\
       n_items t' = n_items t - zlen (concat (ztake i (arr t))) + zlen (List.filter q (concat (ztake i (arr t)))))
     (zlen (arr t)) (fun i t => do b <- sub_chk (arr t) i; let (b', n') := filterP p b (n_items t) in
                do a <- update_chk (arr t) i b'; Ret (HT a n')) (S (length (arr t))) 0 t) as (t' & E & Ea & En).
  - intros i t1 Hi (Ea & En). destruct (zget_some (arr t) i) as [b Gb]; [lia|].
    destruct (update_skipn _ _ _ (List.filter q b) Gb (List.filter q) eq_refl) as [U Gm].
    unfold sub_chk, update_chk. rewrite Ea, Gm. cbn [bind]. rewrite filterP_spec.
    change (fun c : Z * (K * V) => p (fst (snd c)) (snd (snd c))) with q. rewrite U. cbn [bind].
    eexists. split; [reflexivity|]. cbn [arr n_items]. split; [reflexivity|]. rewrite En.
    rewrite (ztake_S _ _ _ Gb), concat_app, filter_app, !zlen_app. cbn [concat]. rewrite app_nil_r. lia.
  - pose proof (zlen_nonneg (arr t)). lia.
  - unfold zlen. lia.
  - rewrite ztake_0. cbn. split; [reflexivity|lia].
  - exists t'. split; [exact E|]. rewrite ztake_all in Ea, En.
    rewrite skipn_all2, app_nil_r in Ea by (unfold zlen; lia).
    destruct G as [(w & Hw & L) Pl]. split; [split|split; [|split]].
    + exists w. split; [assumption|]. rewrite Ea. unfold zlen. rewrite map_length. exact L.
    + intros i b Hb c Hc. rewrite Ea in Hb |- *. assert (LM : zlen (List.map (List.filter q) (arr t)) = zlen (arr t)) by (unfold zlen; now rewrite map_length).
      rewrite LM. unfold zget in Hb. destruct (Z.ltb_spec i 0) as [|Hi]; [discriminate|]. rewrite nth_error_map in Hb.
      destruct (nth_error (arr t) (Z.to_nat i)) as [b0|] eqn:G0; [|discriminate]. cbn in Hb. injection Hb as <-.
      apply filter_In in Hc as [Hc _]. apply (Pl i b0); [|assumption]. unfold zget. destruct (Z.ltb_spec i 0); [lia|assumption].
    + unfold entries. rewrite Ea, concat_map_filter. unfold q.
      rewrite (map_snd_filter (fun e => p (fst e) (snd e))). now apply filter_perm.
    + now apply distinct_filter.
    + rewrite En, N.
      assert (PF : Permutation (List.map snd (List.filter q (concat (arr t)))) (List.filter (fun e => p (fst e) (snd e)) m)).
      { unfold q. rewrite (map_snd_filter (fun e => p (fst e) (snd e))). now apply filter_perm. }
      apply Permutation_length in PF, P. unfold entries in P. rewrite map_length in PF, P. unfold zlen. lia.
Qed.

(** ** copy *)
Lemma array_ok {B} (t : table entry) m (v : B) : inv t m -> array (zlen (arr t)) v = Ret (repeat v (length (arr t))).
Proof.
  intros ([(p & Hp & L) _] & _). unfold array, maxLen.
  assert (0 < 2 ^ p) by (apply Z.pow_pos_nonneg; lia).
  assert (2 ^ p <= 2 ^ 53) by (apply Z.pow_le_mono_r; lia). change (2 ^ 53) with 9007199254740992 in *. rewrite <- L in *.
  destruct (Z.ltb_spec (zlen (arr t)) 0); [lia|]. rewrite Z.gtb_ltb. destruct (Z.ltb_spec 18014398509481983 (zlen (arr t))); [lia|].
  cbn [orb]. unfold zlen. now rewrite Nat2Z.id.
Qed.
Lemma copy_loop_spec (a : list (bucket entry)) : forall fuel na i, 0 <= i <= zlen a -> zlen a - i < Z.of_nat fuel -> zlen na = zlen a ->
  (forall j, 0 <= j < i -> zget na j = option_map (fun b => b) (zget a j)) -> copy_loop fuel a na i = Ret a.
Proof.
  induction fuel as [|fuel IH]; intros na i Hi Hf L H; [lia|]. cbn [copy_loop].
  unfold sub_chk. destruct (zget a i) as [b|] eqn:G.
  - pose proof (zget_range _ _ _ G). cbn [bind].
    destruct (fill_left (fun b => b) a na i L ltac:(lia) H b G) as (na' & -> & L' & H'). apply IH; auto; lia.
  - assert (i = zlen a). { destruct (Z.eq_dec i (zlen a)); [assumption|]. destruct (zget_some a i) as [b Hb]; [lia|congruence]. }
    subst i. cbn [bind]. f_equal. rewrite (filled _ _ _ L H). apply map_id.
Qed.
Lemma copy_spec t m : inv t m -> copy t = Ret t.
Proof.
  intros I. unfold copy. rewrite (array_ok t m _ I). cbn [bind].
  rewrite copy_loop_spec; try (unfold zlen; rewrite ?repeat_length; lia).
  cbn [bind]. now destruct t.
Qed.
End P.

(** ** map and transform *)
Section M.
Context {K V W : Type} (hashVal : K -> Z) (sameKey : K -> K -> bool).
Lemma mapF_spec (f : K -> V -> W) b : mapF f b = List.map (fun c => (fst c, (fst (snd c), f (fst (snd c)) (snd (snd c))))) b.
Proof. induction b as [|[h [k v]] b IH]; cbn; [reflexivity|now rewrite IH]. Qed.
Lemma transF_spec (f : V -> W) (b : bucket (K * V)) : transF f b = mapF (fun _ v => f v) b.
Proof. induction b as [|[h [k v]] b IH]; cbn; [reflexivity|now rewrite IH]. Qed.
Definition map_entries (f : K -> V -> W) (m : list (K * V)) : list (K * W) := List.map (fun e => (fst e, f (fst e) (snd e))) m.

Lemma map_spec (f : K -> V -> W) t m : inv fst hashVal sameKey t m ->
  exists t', map f t = Ret t' /\ inv fst hashVal sameKey t' (map_entries f m).
Proof.
  intros I. unfold map. rewrite (array_ok hashVal sameKey t m _ I). cbn [bind].
  destruct (for_up_inv (fun i na => zlen na = zlen (arr t) /\ forall j, 0 <= j < i -> zget na j = option_map (mapF f) (zget (arr t) j))
    (zlen (arr t)) (fun i na => do b <- sub_chk (arr t) i; update_chk na i (mapF f b)) (S (length (arr t))) 0
    (repeat [] (length (arr t)))) as (na & E & L & H).
  - intros i na Hi (L & H). destruct (zget_some (arr t) i) as [b Gb]; [lia|]. unfold sub_chk. rewrite Gb. cbn [bind].
    destruct (fill_left (mapF f) (arr t) na i L ltac:(lia) H b Gb) as (na' & E & L' & H'). exists na'. auto.
  - pose proof (zlen_nonneg (arr t)). lia.
  - unfold zlen. lia.
  - rewrite zlen_repeat. split; [reflexivity|]. intros. lia.
  - rewrite E. cbn [bind]. eexists. split; [reflexivity|]. rewrite (filled _ _ _ L H) in *. clear E H.
    destruct I as ([(w & Hw & Lw) Pl] & P & D & N).
    assert (EN : entries (List.map (mapF f) (arr t)) = map_entries f (entries (arr t))).
    { unfold entries, map_entries. rewrite (map_ext _ _ (mapF_spec f)), <- concat_map, !map_map. reflexivity. }
    assert (LM : zlen (List.map (mapF f) (arr t)) = zlen (arr t)) by (unfold zlen; now rewrite map_length).
    split; [split|split; [|split]]; cbn [arr n_items].
    + exists w. split; [assumption|]. now rewrite LM.
    + rewrite LM. intros i b Hb c Hc. unfold zget in Hb. destruct (Z.ltb_spec i 0) as [|Hi]; [discriminate|]. rewrite nth_error_map in Hb.
      destruct (nth_error (arr t) (Z.to_nat i)) as [b0|] eqn:G0; [|discriminate]. cbn in Hb. injection Hb as <-.
      rewrite mapF_spec in Hc. apply in_map_iff in Hc as (c0 & <- & Hc). cbn [fst snd]. apply (Pl i b0); [|assumption].
      unfold zget. destruct (Z.ltb_spec i 0); [lia|assumption].
    + rewrite EN. now apply Permutation_map.
    + unfold map_entries. clear -D. induction m as [|e m IH]; [constructor|]. cbn [List.map].
      apply distinct_cons in D as [F D]. apply distinct_cons. split; [|now apply IH].
      apply Forall_forall. intros x Hx. apply in_map_iff in Hx as (y & <- & Hy). cbn [fst].
      rewrite Forall_forall in F. now apply F.
    + unfold map_entries. now rewrite map_length.
Qed.
Lemma transform_spec (f : V -> W) (t : table (K * V)) : transform f t = map (fun _ v => f v) t.
Proof.
  unfold transform, map. destruct (array (zlen (arr t)) []) as [na| | |]; [|reflexivity..]. cbn [bind].
  assert (H : forall fuel i na, for_up fuel i (zlen (arr t)) (fun i na => do b <- sub_chk (arr t) i; update_chk na i (transF f b)) na
     = for_up fuel i (zlen (arr t)) (fun i na => do b <- sub_chk (arr t) i; update_chk na i (mapF (fun _ v => f v) b)) na).
  { clear na. induction fuel as [|fuel IH]; intros i na; cbn [for_up]; [reflexivity|].
    destruct (i <? zlen (arr t)); [|reflexivity]. destruct (sub_chk (arr t) i); [|reflexivity..]. cbn [bind]. rewrite transF_spec.
    destruct (update_chk _ _ _); [|reflexivity..]. cbn [bind]. apply IH. }
  now rewrite H.
Qed.
End M.
