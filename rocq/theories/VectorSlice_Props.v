(** C57: a slice is a part of a vector; the operations on it are those of List on the elements of
    that part, and never read or write outside a vector. *)
From Verif Require Import Base ArrayLib List_Model List_Props ListPair_Props Vector_Model Vector_Props VectorSlice_Model.

(** ** Specification *)
(** the slice shows the elements [l] of its vector *)
Definition shows {A} (sl : slice A) (l : list A) : Prop :=
  let '(a, i, n) := sl in exists pre post, a = pre ++ l ++ post /\ i = Z.of_nat (Datatypes.length pre) /\ n = Z.of_nat (Datatypes.length l).
(** index in the vector of the first element *)
Definition first_index {A} (sl : slice A) : Z := snd (fst sl).

(** ** Proofs *)
Lemma stop_zlen {A} (pre l : list A) : zlen pre + zlen l = zlen (pre ++ l).
Proof. now rewrite zlen_app. Qed.
Lemma enum_snoc {A} k (l : list A) x : enum k (l ++ [x]) = enum k l ++ [(k + zlen l, x)].
Proof.
  unfold enum. rewrite app_length. cbn [Datatypes.length]. rewrite Nat.add_1_r, seq_S, map_app. cbn [List.map Nat.add].
  now rewrite combine_snoc by now rewrite map_length, seq_length.
Qed.
Section P.
Context {S A B : Type}.
Lemma find_in (p : Z -> A -> M S bool) l : forall fuel pre post s, (Datatypes.length l < fuel)%nat ->
  find_lr fuel p (pre ++ l ++ post) (zlen (pre ++ l)) (zlen pre) s = Ret (find (fun '(j, x) => p j x) (enum (zlen pre) l) s).
Proof.
  induction l as [|x l IH]; intros [|fuel] pre post s F; cbn [Datatypes.length] in F; try lia; cbn [find_lr].
  - rewrite at_stop. reflexivity.
  - rewrite lt_stop, enum_cons. cbn [find List.app]. unfold vseq, prim, call, seq. rewrite raw_at. cbn [bind]. destruct (p (zlen pre) x s) as [[|] s1|e s1]; cbn [bind]; try reflexivity.
    rewrite (snoc pre x l), (snoc pre x (l ++ post)), <- zlen_snoc with (x := x). apply IH. lia.
Qed.
Lemma exists_in (p : A -> M S bool) l : forall fuel pre post s, (Datatypes.length l < fuel)%nat ->
  exists_lr fuel p (pre ++ l ++ post) (zlen (pre ++ l)) (zlen pre) s = Ret (exists_ p l s).
Proof.
  induction l as [|x l IH]; intros [|fuel] pre post s F; cbn [Datatypes.length] in F; try lia; cbn [exists_lr].
  - rewrite at_stop. reflexivity.
  - rewrite lt_stop. cbn [exists_ List.app]. unfold vseq, prim, call, seq. rewrite raw_at. cbn [bind]. destruct (p x s) as [[|] s1|e s1]; cbn [bind]; try reflexivity.
    rewrite (snoc pre x l), (snoc pre x (l ++ post)), <- zlen_snoc with (x := x). apply IH. lia.
Qed.
Lemma all_in (p : A -> M S bool) l : forall fuel pre post s, (Datatypes.length l < fuel)%nat ->
  all_lr fuel p (pre ++ l ++ post) (zlen (pre ++ l)) (zlen pre) s = Ret (all p l s).
Proof.
  induction l as [|x l IH]; intros [|fuel] pre post s F; cbn [Datatypes.length] in F; try lia; cbn [all_lr]; rewrite Z.geb_leb, Z.leb_antisym.
  - rewrite at_stop. reflexivity.
  - rewrite lt_stop. cbn [all negb List.app]. unfold vseq, prim, call, seq. rewrite raw_at. cbn [bind]. destruct (p x s) as [[|] s1|e s1]; cbn [bind]; try reflexivity.
    rewrite (snoc pre x l), (snoc pre x (l ++ post)), <- zlen_snoc with (x := x). apply IH. lia.
Qed.
Lemma foldl_in (f : Z -> A -> B -> M S B) l : forall fuel pre post r s, (Datatypes.length l < fuel)%nat ->
  foldl_lr fuel f (pre ++ l ++ post) (zlen (pre ++ l)) (zlen pre) r s = Ret (foldl (fun '((j, x), r) => f j x r) r (enum (zlen pre) l) s).
Proof.
  induction l as [|x l IH]; intros [|fuel] pre post r s F; cbn [Datatypes.length] in F; try lia; cbn [foldl_lr].
  - rewrite at_stop. reflexivity.
  - rewrite lt_stop, enum_cons. cbn [foldl List.app]. unfold vseq, prim, call, seq. rewrite raw_at. cbn [bind]. destruct (f (zlen pre) x r s) as [r1 s1|e s1]; cbn [bind]; try reflexivity.
    rewrite (snoc pre x l), (snoc pre x (l ++ post)), <- zlen_snoc with (x := x). apply IH. lia.
Qed.
Lemma app_in (f : Z -> A -> M S unit) l : forall fuel pre post s, (Datatypes.length l < fuel)%nat ->
  app_lr fuel f (pre ++ l ++ post) (zlen (pre ++ l)) (zlen pre) s = Ret (app (fun '(j, x) => f j x) (enum (zlen pre) l) s).
Proof.
  induction l as [|x l IH]; intros [|fuel] pre post s F; cbn [Datatypes.length] in F; try lia; cbn [app_lr].
  - rewrite at_stop. reflexivity.
  - rewrite lt_stop, enum_cons. cbn [app List.app]. unfold vseq, prim, call, seq. rewrite raw_at. cbn [bind]. destruct (f (zlen pre) x s) as [r1 s1|e s1]; cbn [bind]; try reflexivity.
    rewrite (snoc pre x l), (snoc pre x (l ++ post)), <- zlen_snoc with (x := x). apply IH. lia.
Qed.
Lemma map_in (f : Z -> A -> M S B) l i : forall fuel pre post done s, (Datatypes.length l < fuel)%nat -> zlen done = zlen pre - i ->
  sl_map_lr fuel f (pre ++ l ++ post) (done ++ repeat None (Datatypes.length l)) i (zlen (pre ++ l)) (zlen pre) s =
  Ret (match map (fun '(j, x) => f j x) (enum (zlen pre) l) s with Val bs s' => Val (done ++ List.map Some bs) s' | Exn e s' => Exn e s' end).
Proof.
  induction l as [|x l IH]; intros [|fuel] pre post done s F E; cbn [Datatypes.length] in F; try lia; cbn [sl_map_lr].
  - rewrite at_stop. reflexivity.
  - rewrite lt_stop, enum_cons. cbn [map Datatypes.length repeat List.app]. unfold vseq, prim, call, seq. rewrite raw_at. cbn [bind]. destruct (f (zlen pre) x s) as [b s1|e s1]; cbn [bind]; try reflexivity.
    rewrite <- E, set_at. cbn [bind]. rewrite (snoc pre x l), (snoc pre x (l ++ post)), (snoc done (Some b)), <- (zlen_snoc pre x).
    rewrite IH; [|lia|rewrite !zlen_snoc; lia]. destruct (map _ _ s1); [|reflexivity]. cbn [List.map]. unfold val. now rewrite <- app_assoc.
Qed.
Lemma foldr_in (f : Z -> A -> B -> M S B) l pre : forall fuel post r s, (Datatypes.length l < fuel)%nat ->
  sl_rl fuel f (pre ++ l ++ post) (zlen pre) (zlen pre + zlen l - 1) r s = Ret (foldr (fun '((j, x), r) => f j x r) r (enum (zlen pre) l) s).
Proof.
  induction l as [|x l IH] using rev_ind; intros [|fuel] post r s F; try (cbn [Datatypes.length] in F; lia); cbn [sl_rl]; rewrite Z.geb_leb.
  - change (zlen (@nil A)) with 0. destruct (Z.leb_spec (zlen pre) (zlen pre + 0 - 1)); [lia|reflexivity].
  - rewrite zlen_snoc. pose proof (zlen_nonneg l). destruct (Z.leb_spec (zlen pre) (zlen pre + (zlen l + 1) - 1)); [|lia].
    replace (zlen pre + (zlen l + 1) - 1) with (zlen pre + zlen l) by lia.
    rewrite <- app_assoc. cbn [List.app]. unfold vseq, prim, call. rewrite stop_zlen, app_assoc, raw_at. cbn [bind]. rewrite <- app_assoc, <- stop_zlen.
    destruct (C55_folds S (Z * A) B (fun '((j, x), r) => f j x r) r (enum (zlen pre) (l ++ [x])) s) as (_ & ->).
    rewrite enum_snoc, rev_app_distr. cbn [List.rev List.app fold_left fold_step]. rewrite app_length in F. cbn [Datatypes.length] in F.
    destruct (f (zlen pre + zlen l) x r s) as [r1 s1|e s1]; cbn [bind].
    + rewrite IH by lia. destruct (C55_folds S (Z * A) B (fun '((j, x), r) => f j x r) r1 (enum (zlen pre) l) s1) as (_ & ->). reflexivity.
    + now rewrite fold_exn.
Qed.
End P.

(** ** Theorems *)
(** the slices that can be made, and where Subscript is raised *)
Theorem C57_slice : forall A (a : list A) i n,
  (0 <= i -> 0 <= n -> i + n <= Z.of_nat (Datatypes.length a) ->
   sl_slice a i (Some n) = Ret (a, i, n) /\ exists pre l post, a = pre ++ l ++ post /\ Z.of_nat (Datatypes.length pre) = i /\ Z.of_nat (Datatypes.length l) = n /\ shows (a, i, n) l) /\
  (i < 0 \/ n < 0 \/ Z.of_nat (Datatypes.length a) < i + n -> sl_slice a i (Some n) = Raise Subscript) /\
  sl_slice a i None = (if (0 <=? i) && (i <=? Z.of_nat (Datatypes.length a)) then sl_slice a i (Some (Z.of_nat (Datatypes.length a) - i)) else Raise Subscript) /\
  shows (sl_full a) a.
Proof.
  intros A a i n. repeat split.
  - intros. unfold sl_slice, zlen. destruct (Z.leb_spec 0 i), (Z.leb_spec 0 n), (Z.leb_spec n (Z.of_nat (Datatypes.length a) - i)); try lia. reflexivity.
  - intros. exists (firstn (Z.to_nat i) a), (firstn (Z.to_nat n) (skipn (Z.to_nat i) a)), (skipn (Z.to_nat n) (skipn (Z.to_nat i) a)).
    assert (E : a = firstn (Z.to_nat i) a ++ firstn (Z.to_nat n) (skipn (Z.to_nat i) a) ++ skipn (Z.to_nat n) (skipn (Z.to_nat i) a)) by now rewrite !firstn_skipn.
    assert (L1 : Z.of_nat (Datatypes.length (firstn (Z.to_nat i) a)) = i) by (rewrite firstn_length; lia).
    assert (L2 : Z.of_nat (Datatypes.length (firstn (Z.to_nat n) (skipn (Z.to_nat i) a))) = n) by (rewrite firstn_length, skipn_length; lia).
    repeat split; try assumption. eexists _, _. repeat split; [exact E| |]; lia.
  - intros. unfold sl_slice, zlen. destruct (Z.leb_spec 0 i), (Z.leb_spec 0 n), (Z.leb_spec n (Z.of_nat (Datatypes.length a) - i)); try lia; reflexivity.
  - unfold sl_slice, zlen. destruct (Z.leb_spec 0 i), (Z.leb_spec i (Z.of_nat (Datatypes.length a))); try reflexivity. cbn [andb].
    destruct (Z.leb_spec 0 (Z.of_nat (Datatypes.length a) - i)); [|lia]. now rewrite Z.leb_refl.
  - exists [], []. now rewrite app_nil_r.
Qed.
Theorem C57_subslice : forall A (sl : slice A) l, shows sl l ->
  (forall l1 m l2, l = l1 ++ m ++ l2 -> exists sl', sl_subslice sl (Z.of_nat (Datatypes.length l1)) (Some (Z.of_nat (Datatypes.length m))) = Ret sl' /\
     shows sl' m /\ first_index sl' = first_index sl + Z.of_nat (Datatypes.length l1) /\ fst (fst (sl_base sl')) = fst (fst (sl_base sl))) /\
  (forall i n, i < 0 \/ n < 0 \/ Z.of_nat (Datatypes.length l) < i + n -> sl_subslice sl i (Some n) = Raise Subscript) /\
  (forall i, sl_subslice sl i None = if (0 <=? i) && (i <=? Z.of_nat (Datatypes.length l)) then sl_subslice sl i (Some (Z.of_nat (Datatypes.length l) - i)) else Raise Subscript).
Proof.
  intros A [[a i0] n0] l (pre & post & -> & -> & ->). repeat split.
  - intros l1 m l2 ->. eexists. split; [|split; [|split]].
    + cbn [sl_subslice]. rewrite !app_length. destruct (Z.leb_spec 0 (Z.of_nat (Datatypes.length l1))), (Z.leb_spec 0 (Z.of_nat (Datatypes.length m))),
        (Z.leb_spec (Z.of_nat (Datatypes.length m)) (Z.of_nat (Datatypes.length l1 + (Datatypes.length m + Datatypes.length l2)) - Z.of_nat (Datatypes.length l1))); try lia. reflexivity.
    + exists (pre ++ l1), (l2 ++ post). rewrite !app_length, <- !app_assoc. repeat split. lia.
    + reflexivity.
    + reflexivity.
  - intros i n H. cbn [sl_subslice]. destruct (Z.leb_spec 0 i), (Z.leb_spec 0 n), (Z.leb_spec n (Z.of_nat (Datatypes.length l) - i)); try lia; reflexivity.
  - intros i. cbn [sl_subslice]. destruct (Z.leb_spec 0 i), (Z.leb_spec i (Z.of_nat (Datatypes.length l))); try reflexivity. cbn [andb].
    destruct (Z.leb_spec 0 (Z.of_nat (Datatypes.length l) - i)); [|lia]. now rewrite Z.leb_refl.
Qed.

Lemma copy_in {A} (l : list A) : forall fuel pre post i m done rest to, (Datatypes.length l < fuel)%nat -> zlen pre = i + m -> zlen done = to + m ->
  sl_copy fuel (pre ++ l ++ post) (done ++ repeat None (Datatypes.length l) ++ rest) to i (m + zlen l) m = Ret (done ++ List.map Some l ++ rest).
Proof.
  induction l as [|x l IH]; intros [|fuel] pre post i m done rest to F E D; cbn [Datatypes.length] in F; try lia; cbn [sl_copy].
  - change (zlen (@nil A)) with 0. rewrite Z.add_0_r, Z.ltb_irrefl. reflexivity.
  - rewrite zlen_cons. pose proof (zlen_nonneg l). destruct (Z.ltb_spec m (m + (1 + zlen l))); [|lia]. cbn [List.app Datatypes.length repeat List.map].
    rewrite <- E, raw_at. cbn [bind]. rewrite <- D, set_at. cbn [bind]. rewrite (snoc pre x (l ++ post)), (snoc done (Some x)).
    replace (m + (1 + zlen l)) with (m + 1 + zlen l) by lia. rewrite IH; [|lia|rewrite zlen_snoc; lia|rewrite zlen_snoc; lia]. now rewrite <- app_assoc.
Qed.
Theorem C57_access : forall A (sl : slice A) l, shows sl l ->
  sl_length sl = Z.of_nat (Datatypes.length l) /\ (sl_isEmpty sl = true <-> l = []) /\ sl_vector sl = Ret (List.map Some l) /\
  (forall l1 x l2, l = l1 ++ x :: l2 -> sl_sub sl (Z.of_nat (Datatypes.length l1)) = Ret x) /\
  (forall i, i < 0 \/ Z.of_nat (Datatypes.length l) <= i -> sl_sub sl i = Raise Subscript) /\
  (l = [] -> sl_getItem sl = Ret None) /\
  (forall x l', l = x :: l' -> exists sl', sl_getItem sl = Ret (Some (x, sl')) /\ shows sl' l' /\ first_index sl' = first_index sl + 1).
Proof.
  intros A [[a i0] n0] l (pre & post & -> & -> & ->). split; [|split; [|split; [|split; [|split; [|split]]]]].
  - reflexivity.
  - cbn [sl_isEmpty]. rewrite Z.eqb_eq. destruct l; cbn [Datatypes.length]; split; intros; try reflexivity; try discriminate; lia.
  - cbn [sl_vector]. unfold rounds, vector_. rewrite Nat2Z.id.
    pose proof (copy_in l (Datatypes.S (Datatypes.length l)) pre post (zlen pre) 0 [] [] 0 ltac:(lia) ltac:(lia) eq_refl) as E. cbn [List.app] in E. rewrite !app_nil_r in E. exact E.
  - intros l1 x l2 ->. cbn [sl_sub]. rewrite app_length. cbn [Datatypes.length]. rewrite Z.geb_leb.
    destruct (Z.ltb_spec (Z.of_nat (Datatypes.length l1)) 0); [lia|]. destruct (Z.leb_spec (Z.of_nat (Datatypes.length l1 + Datatypes.S (Datatypes.length l2))) (Z.of_nat (Datatypes.length l1))); [lia|]. cbn [orb].
    change (Z.of_nat (Datatypes.length pre)) with (zlen pre). change (Z.of_nat (Datatypes.length l1)) with (zlen l1). rewrite stop_zlen, <- app_assoc, app_assoc. cbn [List.app]. apply raw_at.
  - intros i H. cbn [sl_sub]. rewrite Z.geb_leb. destruct (Z.ltb_spec i 0); [reflexivity|]. destruct (Z.leb_spec (Z.of_nat (Datatypes.length l)) i); [reflexivity|lia].
  - intros ->. reflexivity.
  - intros x l' ->. eexists. cbn [sl_getItem Datatypes.length]. destruct (Z.eqb_spec (Z.of_nat (Datatypes.S (Datatypes.length l'))) 0); [lia|]. cbn [List.app].
    change (Z.of_nat (Datatypes.length pre)) with (zlen pre). rewrite raw_at. cbn [bind]. split; [reflexivity|]. split; [|reflexivity].
    exists (pre ++ [x]), post. rewrite app_length, <- app_assoc. cbn [Datatypes.length List.app]. unfold zlen. repeat split; lia.
Qed.
(** the index passed is that in the vector, not in the slice *)
Theorem C57_loops : forall S A B (sl : slice A) l (s : S), shows sl l ->
  (forall p, sl_find p sl s = Ret (find p l s)) /\ (forall p, sl_exists p sl s = Ret (exists_ p l s)) /\ (forall p, sl_all p sl s = Ret (all p l s)) /\
  (forall f (b : B), sl_foldl f b sl s = Ret (foldl f b l s)) /\ (forall f (b : B), sl_foldr f b sl s = Ret (foldr f b l s)) /\
  (forall f, sl_app f sl s = Ret (app f l s)) /\ (forall f : A -> M S B, sl_map f sl s = filled (map f l s)).
Proof.
  intros S A B [[a i0] n0] l s (pre & post & -> & -> & ->). assert (F : (Datatypes.length l < rounds (zlen l))%nat) by (unfold rounds, zlen; lia).
  change (Z.of_nat (Datatypes.length pre)) with (zlen pre). change (Z.of_nat (Datatypes.length l)) with (zlen l). repeat split.
  - intros p. cbn [sl_find]. unfold vseq. rewrite stop_zlen, find_in by exact F. cbn [bind]. rewrite <- (find_forget p l (zlen pre) s). destruct (find _ (enum _ l) s); reflexivity.
  - intros p. cbn [sl_exists]. rewrite stop_zlen. now apply exists_in.
  - intros p. cbn [sl_all]. rewrite stop_zlen. now apply all_in.
  - intros f b. cbn [sl_foldl]. rewrite stop_zlen, <- (foldl_forget f l (zlen pre)). exact (foldl_in (fun _ x r => f (x, r)) l _ pre post b s F).
  - intros f b. cbn [sl_foldr]. rewrite <- (foldr_forget f l (zlen pre)). exact (foldr_in (fun _ x r => f (x, r)) l pre _ post b s F).
  - intros f. cbn [sl_app]. rewrite stop_zlen, <- (app_forget f l (zlen pre)). exact (app_in (fun _ x => f x) l _ pre post s F).
  - intros f. cbn [sl_map]. unfold filled, vector_. rewrite stop_zlen, <- (map_forget f l (zlen pre)). unfold zlen at 2. rewrite Nat2Z.id.
    exact (map_in (fun _ x => f x) l (zlen pre) _ pre post [] s F ltac:(cbn; lia)).
Qed.
Theorem C57_indexed : forall S A B (sl : slice A) l (s : S), shows sl l -> let k := first_index sl in
  (forall p, sl_findi p sl s = Ret (find p (enum k l) s)) /\
  (forall f (b : B), sl_foldli f b sl s = Ret (foldl f b (enum k l) s)) /\ (forall f (b : B), sl_foldri f b sl s = Ret (foldr f b (enum k l) s)) /\
  (forall f, sl_appi f sl s = Ret (app f (enum k l) s)) /\ (forall f : Z * A -> M S B, sl_mapi f sl s = filled (map f (enum k l) s)).
Proof.
  intros S A B [[a i0] n0] l s (pre & post & -> & -> & ->). assert (F : (Datatypes.length l < rounds (zlen l))%nat) by (unfold rounds, zlen; lia).
  cbn [first_index fst snd]. change (Z.of_nat (Datatypes.length pre)) with (zlen pre). change (Z.of_nat (Datatypes.length l)) with (zlen l). repeat split.
  - intros p. cbn [sl_findi]. rewrite stop_zlen, <- find_pair. exact (find_in (fun j x => p (j, x)) l _ pre post s F).
  - intros f b. cbn [sl_foldli]. rewrite stop_zlen, <- foldl_pair. exact (foldl_in (fun j x r => f (j, x, r)) l _ pre post b s F).
  - intros f b. cbn [sl_foldri]. rewrite <- foldr_pair. exact (foldr_in (fun j x r => f (j, x, r)) l pre _ post b s F).
  - intros f. cbn [sl_appi]. rewrite stop_zlen, <- app_pair. exact (app_in (fun j x => f (j, x)) l _ pre post s F).
  - intros f. cbn [sl_mapi]. unfold filled, vector_. rewrite stop_zlen, <- map_pair. unfold zlen at 2. rewrite Nat2Z.id.
    exact (map_in (fun j x => f (j, x)) l (zlen pre) _ pre post [] s F ltac:(cbn; lia)).
Qed.

Lemma acc_shows {A} (sls : list (slice A)) ls : Forall2 shows sls ls -> forall len, sl_acc sls len = acc ls len.
Proof. induction 1 as [|[[a i0] n0] l sls ls (pre & post & -> & -> & ->) _ IH]; intros len; [reflexivity|]. cbn [sl_acc acc]. unfold zlen. now rewrite IH. Qed.
Lemma copyall_in {A} (sls : list (slice A)) ls : Forall2 shows sls ls -> forall done,
  sl_copyall (done ++ repeat None (Datatypes.length (List.concat ls))) (zlen done) sls = Ret (done ++ List.map Some (List.concat ls)).
Proof.
  induction 1 as [|[[a i0] n0] l sls ls (pre & post & -> & -> & ->) _ IH]; intros done; [reflexivity|]. cbn [sl_copyall List.concat]. rewrite app_length, repeat_app, map_app.
  pose proof (copy_in l (rounds (zlen l)) pre post (zlen pre) 0 done (repeat None (Datatypes.length (List.concat ls))) (zlen done) ltac:(unfold rounds, zlen; lia) ltac:(lia) ltac:(lia)) as E.
  cbn [Z.add] in E. change (Z.of_nat (Datatypes.length pre)) with (zlen pre). change (Z.of_nat (Datatypes.length l)) with (zlen l). change (0 + zlen l) with (zlen l) in E. rewrite E. cbn [bind]. rewrite app_assoc.
  replace (zlen done + zlen l) with (zlen (done ++ List.map Some l)) by (rewrite zlen_app; unfold zlen; now rewrite map_length).
  now rewrite IH, <- app_assoc.
Qed.
Theorem C57_concat : forall A (sls : list (slice A)) ls, Forall2 shows sls ls -> let n := Z.of_nat (Datatypes.length (List.concat ls)) in
  sl_concat sls = if n <=? maxLen then Ret (List.map Some (List.concat ls)) else if n <? 2 ^ 62 then Raise Size else Raise Overflow.
Proof.
  intros A sls ls H n. unfold sl_concat. rewrite (acc_shows _ _ H), acc_ok. change (zlen (List.concat ls)) with n. change (0 + n) with n.
  destruct (Z.leb_spec n 4611686018427387903), (Z.ltb_spec n (2 ^ 62)); try lia; cbn [bind].
  - rewrite Z.gtb_ltb, Z.ltb_antisym. destruct (n <=? maxLen); [|reflexivity]. cbn [negb]. unfold vector_, n. rewrite Nat2Z.id. exact (copyall_in sls ls H []).
  - destruct (Z.leb_spec n maxLen); [unfold maxLen in *; lia|]. destruct ls; [cbn in n; lia|reflexivity].
Qed.

Lemma h_in {S A} (cmp : A * A -> M S comparison) l1 : forall fuel p1 q1 p2 q2 l2 i1 i2 m s, (Datatypes.length l1 < fuel)%nat -> zlen p1 = i1 + m -> zlen p2 = i2 + m ->
  sl_h fuel cmp (p1 ++ l1 ++ q1) (p2 ++ l2 ++ q2) i1 (m + zlen l1) i2 (m + zlen l2) (if m + zlen l1 <? m + zlen l2 then m + zlen l1 else m + zlen l2) m s = Ret (collate cmp l1 l2 s).
Proof.
  induction l1 as [|x l1 IH]; intros [|fuel] p1 q1 p2 q2 l2 i1 i2 m s F E1 E2; cbn [Datatypes.length] in F; try lia; cbn [sl_h].
  - change (zlen (@nil A)) with 0. rewrite Z.add_0_r. destruct l2 as [|y l2].
    + change (zlen (@nil A)) with 0. rewrite Z.add_0_r, Z.ltb_irrefl, Z.eqb_refl, Z.gtb_ltb, Z.ltb_irrefl. reflexivity.
    + rewrite zlen_cons. pose proof (zlen_nonneg l2). destruct (Z.ltb_spec m (m + (1 + zlen l2))); [|lia]. rewrite Z.eqb_refl. reflexivity.
  - pose proof (zlen_nonneg l1). destruct l2 as [|y l2].
    + change (zlen (@nil A)) with 0. rewrite Z.add_0_r, zlen_cons. destruct (Z.ltb_spec (m + (1 + zlen l1)) m); [lia|]. rewrite Z.eqb_refl, Z.gtb_ltb.
      destruct (Z.ltb_spec m (m + (1 + zlen l1))); [reflexivity|lia].
    + pose proof (zlen_nonneg l2). rewrite !zlen_cons.
      assert (N : (m =? (if m + (1 + zlen l1) <? m + (1 + zlen l2) then m + (1 + zlen l1) else m + (1 + zlen l2))) = false) by (apply Z.eqb_neq; destruct (_ <? _); lia).
      rewrite N. unfold vseq, prim, call. rewrite <- E1, <- E2. cbn [List.app]. rewrite !raw_at. cbn [bind collate]. unfold seq.
      destruct (cmp (x, y) s) as [[| |] s1|e s1]; try reflexivity.
      rewrite (snoc p1 x (l1 ++ q1)), (snoc p2 y (l2 ++ q2)), !Z.add_assoc. apply IH; [lia| |]; rewrite zlen_snoc; lia.
Qed.
Theorem C57_collate : forall S A (cmp : A * A -> M S comparison) sl1 sl2 l1 l2 s, shows sl1 l1 -> shows sl2 l2 -> sl_collate cmp sl1 sl2 s = Ret (collate cmp l1 l2 s).
Proof.
  intros S A cmp [[a1 i1] n1] [[a2 i2] n2] l1 l2 s (p1 & q1 & -> & -> & ->) (p2 & q2 & -> & -> & ->).
  exact (h_in cmp l1 (rounds (zlen l1)) p1 q1 p2 q2 l2 (zlen p1) (zlen p2) 0 s ltac:(unfold rounds, zlen; lia) ltac:(lia) ltac:(lia)).
Qed.

(** ** Examples *)
Example C57_shows_ex : shows ([5; 6; 7; 8], 1, 2) [6; 7].
Proof. exists [5], [8]. repeat split. Qed.
Example C57_slice_ex : sl_slice [5; 6; 7] 1 (Some 3) = Raise Subscript /\ sl_slice [5; 6; 7] 3 None = Ret ([5; 6; 7], 3, 0).
Proof. split; reflexivity. Qed.
Example C57_subslice_ex : sl_subslice ([5; 6; 7; 8], 1, 3) 1 (Some 2) = Ret ([5; 6; 7; 8], 2, 2) /\ shows ([5; 6; 7; 8], 1, 3) ([6] ++ [7; 8] ++ []).
Proof. split; [reflexivity|]. exists [5], []. repeat split. Qed.
Example C57_access_ex : sl_getItem ([5; 6; 7; 8], 1, 2) = Ret (Some (6, ([5; 6; 7; 8], 2, 1))) /\ sl_sub ([5; 6; 7; 8], 1, 2) 2 = Raise Subscript.
Proof. split; reflexivity. Qed.
Example C57_loops_ex : sl_map inv ([0; 5; 20; 0], 1, 2) [] = Ret (Val [Some 20; Some 5] [5; 20]).
Proof. reflexivity. Qed.
Example C57_indexed_ex : sl_foldri (fun '(j, x, r) => fun s => Val (j + x + r) (s ++ [j])) 0 ([9; 7; 8], 1, 2) [] = Ret (Val 18 [2; 1]).
Proof. reflexivity. Qed.
Example C57_concat_ex : sl_concat [([1; 2; 3], 1, 2); ([4], 0, 0); ([5; 6], 0, 1)] = Ret [Some 2; Some 3; Some 5].
Proof. reflexivity. Qed.
Example C57_collate_ex : sl_collate cmp ([0; 1; 5], 1, 2) ([1; 5; 3], 0, 3) [] = Ret (Val Lt [1; 5]).
Proof. reflexivity. Qed.

Print Assumptions C57_slice.
Print Assumptions C57_subslice.
Print Assumptions C57_access.
Print Assumptions C57_loops.
Print Assumptions C57_indexed.
Print Assumptions C57_concat.
Print Assumptions C57_collate.
