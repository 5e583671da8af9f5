(** Lemmas on the string and substring functions, stated on decompositions of the underlying string. *)
From Verif Require Import Base ArrayLib Copy_Model Copy_Proofs Copy_Props Buffer_Model Buffer_Props Substring_Model Substring_Spec.

(** *** Texts and decompositions *)
Lemma zl_nil {A} : zlen (@nil A) = 0. Proof. reflexivity. Qed.
Lemma to_nat_zlen {A} (a : list A) : Z.to_nat (zlen a) = length a.
Proof. unfold zlen. apply Nat2Z.id. Qed.
Lemma skipn_exact {A} (a b : list A) : skipn (length a) (a ++ b) = b.
Proof. rewrite skipn_app, skipn_all, Nat.sub_diag. reflexivity. Qed.
Lemma firstn_exact {A} (a b : list A) : firstn (length a) (a ++ b) = a.
Proof. rewrite firstn_app, firstn_all, Nat.sub_diag. cbn [firstn]. apply app_nil_r. Qed.
Lemma text_at pre v post i n : i = zlen pre -> n = zlen v -> text (pre ++ v ++ post, i, n) = v.
Proof. intros -> ->. cbn [text]. rewrite !to_nat_zlen, skipn_exact. apply firstn_exact. Qed.
Lemma valid_at pre v post i n : i = zlen pre -> n = zlen v -> valid (pre ++ v ++ post, i, n).
Proof. intros -> ->. cbn [valid]. rewrite !zlen_app. pose proof (zlen_nonneg pre). pose proof (zlen_nonneg v). pose proof (zlen_nonneg post). lia. Qed.
Lemma valid_split s i n : valid (s, i, n) -> exists pre post, s = pre ++ text (s, i, n) ++ post /\ i = zlen pre /\ n = zlen (text (s, i, n)).
Proof.
  intros (H1 & H2 & H3). exists (firstn (Z.to_nat i) s), (skipn (Z.to_nat n) (skipn (Z.to_nat i) s)). cbn [text]. repeat split.
  - now rewrite (firstn_skipn (Z.to_nat n)), firstn_skipn.
  - unfold zlen in *. rewrite firstn_length. lia.
  - unfold zlen in *. rewrite firstn_length, skipn_length. lia.
Qed.
Lemma sub_mid {A} (pre : list A) c post i : i = zlen pre -> sub_raw (pre ++ c :: post) i = Ret c.
Proof. intros ->. unfold sub_raw. rewrite zget_app, Z.ltb_irrefl, Z.sub_diag. reflexivity. Qed.
Lemma app_cons_assoc {A} (a : list A) c b : a ++ c :: b = (a ++ [c]) ++ b.
Proof. now rewrite <- app_assoc. Qed.
Lemma zlen_snoc {A} (a : list A) c : zlen (a ++ [c]) = zlen a + 1.
Proof. now rewrite zlen_app. Qed.
Lemma loop_zlen {A} (v : list A) : loop (zlen v) = S (length v).
Proof. unfold loop. now rewrite to_nat_zlen. Qed.

(** *** Longest prefixes and suffixes *)
Fixpoint tw (p : Z -> bool) (v : list Z) : list Z := match v with [] => [] | c :: v => if p c then c :: tw p v else [] end.
Fixpoint dw (p : Z -> bool) (v : list Z) : list Z := match v with [] => [] | c :: v' => if p c then dw p v' else v end.
Lemma tw_dw p v : v = tw p v ++ dw p v.
Proof. induction v as [|c v IH]; [reflexivity|]. cbn [tw dw]. destruct (p c); [cbn [app]; now f_equal|reflexivity]. Qed.
Lemma tw_longest p v : longest_prefix p (tw p v) (dw p v).
Proof.
  split.
  - induction v as [|c v IH]; intros d H; cbn [tw] in H; [destruct H|]. destruct (p c) eqn:E; [|destruct H].
    destruct H as [<-|H]; auto.
  - induction v as [|c v IH]; intros d b' H; cbn [dw] in H; [discriminate|]. destruct (p c) eqn:E; [eauto|]. congruence.
Qed.
Lemma longest_prefix_unique p a b a' b' : longest_prefix p a b -> longest_prefix p a' b' -> a ++ b = a' ++ b' -> a = a' /\ b = b'.
Proof.
  revert a'. induction a as [|c a IH]; intros [|c' a'] (H1 & H2) (H3 & H4) E; cbn [app] in E.
  - auto.
  - pose proof (H2 _ _ E). specialize (H3 c' (or_introl eq_refl)). congruence.
  - symmetry in E. pose proof (H4 _ _ E). specialize (H1 c (or_introl eq_refl)). congruence.
  - injection E as -> E. destruct (IH a') as [-> ->]; auto; split; auto; intros; try (apply H1; now right); apply H3; now right.
Qed.
Lemma scanl_h_ok p v : forall pre post fuel j e, j = zlen pre -> e = zlen pre + zlen v -> (length v < fuel)%nat ->
  scanl_h fuel p (pre ++ v ++ post) e j = Ret (zlen pre + zlen (tw p v)).
Proof.
  induction v as [|c v IH]; intros pre post [|fuel] j e -> -> Hf; try (cbn [length] in Hf; lia); cbn [scanl_h tw].
  - rewrite zl_nil, Z.add_0_r, Z.ltb_irrefl. f_equal.
  - pose proof (zlen_nonneg v). rewrite zlen_cons. destruct (Z.ltb_spec (zlen pre) (zlen pre + (1 + zlen v))); [|lia].
    rewrite <- app_comm_cons, sub_mid by reflexivity. cbn [bind]. destruct (p c).
    + rewrite app_cons_assoc, IH; [|rewrite zlen_snoc; lia..|cbn [length] in Hf; lia]. rewrite zlen_snoc, zlen_cons. f_equal. lia.
    + rewrite zl_nil. f_equal. lia.
Qed.
Definition twr p v := rev (tw p (rev v)).
Definition dwr p v := rev (dw p (rev v)).
Lemma twr_dwr p v : v = dwr p v ++ twr p v.
Proof. unfold dwr, twr. rewrite <- rev_app_distr, <- tw_dw. now rewrite rev_involutive. Qed.
Lemma twr_longest p v : longest_suffix p (dwr p v) (twr p v).
Proof.
  destruct (tw_longest p (rev v)) as (H1 & H2). unfold dwr, twr. split.
  - intros c H. apply H1. now apply in_rev.
  - intros c a' H. apply (H2 c (rev a')). rewrite <- (rev_involutive (dw p (rev v))), H, rev_app_distr. reflexivity.
Qed.
Lemma zlen_rev {A} (v : list A) : zlen (rev v) = zlen v.
Proof. unfold zlen. now rewrite rev_length. Qed.
Lemma scanr_h_ok p v : forall pre post fuel j e, e = zlen pre - 1 -> j = zlen pre + zlen v - 1 -> (length v < fuel)%nat ->
  scanr_h fuel p (pre ++ v ++ post) e j = Ret (zlen pre + zlen (dwr p v) - 1).
Proof.
  induction v as [|c v IH] using rev_ind; intros pre post [|fuel] j e -> -> Hf; try (cbn [length] in Hf; lia); cbn [scanr_h].
  - unfold dwr. cbn [rev dw]. rewrite zl_nil, Z.gtb_ltb. destruct (Z.ltb_spec (zlen pre - 1) (zlen pre + 0 - 1)); [lia|]. reflexivity.
  - pose proof (zlen_nonneg v). rewrite zlen_snoc, Z.gtb_ltb. destruct (Z.ltb_spec (zlen pre - 1) (zlen pre + (zlen v + 1) - 1)); [|lia].
    replace (pre ++ (v ++ [c]) ++ post) with ((pre ++ v) ++ c :: post) by (now rewrite <- !app_assoc).
    rewrite sub_mid by (rewrite zlen_app; lia). cbn [bind]. unfold dwr. rewrite rev_app_distr. cbn [rev app dw]. destruct (p c).
    + rewrite <- app_assoc, IH; [reflexivity|reflexivity|lia|rewrite app_length in Hf; cbn [length] in Hf; lia].
    + rewrite zlen_rev, zlen_cons, zlen_rev. f_equal. lia.
Qed.

(** *** Left-to-right and right-to-left folds *)
Lemma foldl_h_ok {B} (f : Z * B -> B) v : forall pre post fuel j e r, j = zlen pre -> e = zlen pre + zlen v -> (length v < fuel)%nat ->
  foldl_h fuel f (pre ++ v ++ post) e j r = Ret (fold_left (fun a c => f (c, a)) v r).
Proof.
  induction v as [|c v IH]; intros pre post [|fuel] j e r -> -> Hf; try (cbn [length] in Hf; lia); cbn [foldl_h fold_left].
  - rewrite zl_nil, Z.add_0_r, Z.geb_leb, Z.leb_refl. reflexivity.
  - pose proof (zlen_nonneg v). rewrite zlen_cons, Z.geb_leb. destruct (Z.leb_spec (zlen pre + (1 + zlen v)) (zlen pre)); [lia|].
    rewrite <- app_comm_cons, sub_mid by reflexivity. cbn [bind]. rewrite app_cons_assoc, IH; [reflexivity|rewrite zlen_snoc; lia..|cbn [length] in Hf; lia].
Qed.
Lemma foldr_h_ok {B} (f : Z * B -> B) v : forall pre post fuel j i r, i = zlen pre -> j = zlen pre + zlen v - 1 -> (length v < fuel)%nat ->
  foldr_h fuel f (pre ++ v ++ post) i j r = Ret (fold_right (fun c a => f (c, a)) r v).
Proof.
  induction v as [|c v IH] using rev_ind; intros pre post [|fuel] j i r -> -> Hf; try (cbn [length] in Hf; lia); cbn [foldr_h].
  - rewrite zl_nil. destruct (Z.ltb_spec (zlen pre + 0 - 1) (zlen pre)); [reflexivity|lia].
  - pose proof (zlen_nonneg v). rewrite zlen_snoc. destruct (Z.ltb_spec (zlen pre + (zlen v + 1) - 1) (zlen pre)); [lia|].
    replace (pre ++ (v ++ [c]) ++ post) with ((pre ++ v) ++ c :: post) by (now rewrite <- !app_assoc).
    rewrite sub_mid by (rewrite zlen_app; lia). cbn [bind].
    rewrite <- app_assoc, IH; [now rewrite fold_right_app|reflexivity|lia|rewrite app_length in Hf; cbn [length] in Hf; lia].
Qed.

(** *** Comparisons *)
Lemma collate_h_ok cmp v : forall w k pre1 post1 pre2 post2 fuel i1 i2 n1 n2 j,
  zlen pre1 = i1 + j -> zlen pre2 = i2 + j -> n1 = j + zlen v -> n2 = j + zlen w -> k = Z.min n1 n2 -> (Z.min (zlen v) (zlen w) < Z.of_nat fuel) ->
  collate_h fuel cmp (pre1 ++ v ++ post1) i1 n1 (pre2 ++ w ++ post2) i2 n2 k j = Ret (lex cmp v w).
Proof.
  induction v as [|c v IH]; intros w k pre1 post1 pre2 post2 fuel i1 i2 n1 n2 j P1 P2 -> -> -> Hf; pose proof (zlen_nonneg w);
    (destruct fuel as [|fuel]; [exfalso; rewrite ?zl_nil in Hf; try pose proof (zlen_nonneg (c :: v)); cbn in Hf; lia|]); cbn [collate_h].
  - rewrite zl_nil. destruct (Z.eqb_spec j (Z.min (j + 0) (j + zlen w))); [|lia]. rewrite Z.gtb_ltb.
    destruct w as [|d w]; cbn [lex].
    + change (@zlen Z []) with 0. destruct (Z.ltb_spec (j + 0) (j + 0)); [lia|reflexivity].
    + rewrite zlen_cons in *. pose proof (zlen_nonneg w). destruct (Z.ltb_spec (j + 0) (j + (1 + zlen w))); [reflexivity|lia].
  - rewrite zlen_cons in *. pose proof (zlen_nonneg v). destruct w as [|d w].
    + rewrite zl_nil. destruct (Z.eqb_spec j (Z.min (j + (1 + zlen v)) (j + 0))); [|lia]. cbn [lex]. rewrite Z.gtb_ltb.
      destruct (Z.ltb_spec (j + (1 + zlen v)) (j + 0)); [lia|]. destruct (Z.ltb_spec (j + 0) (j + (1 + zlen v))); [reflexivity|lia].
    + rewrite zlen_cons in *. pose proof (zlen_nonneg w). destruct (Z.eqb_spec j (Z.min (j + (1 + zlen v)) (j + (1 + zlen w)))); [lia|].
      rewrite <- !app_comm_cons, !sub_mid by lia. cbn [bind lex]. destruct (cmp c d); [|reflexivity|reflexivity].
      rewrite (app_cons_assoc pre1), (app_cons_assoc pre2). apply IH; rewrite ?zlen_snoc; lia.
Qed.
Definition eqs (v w : list Z) : bool := if list_eq_dec Z.eq_dec v w then true else false.
Lemma eqs_spec v w : eqs v w = true <-> v = w.
Proof. unfold eqs. destruct (list_eq_dec Z.eq_dec v w); split; congruence. Qed.
Lemma eqs_cons c d v w : eqs (c :: v) (d :: w) = if c =? d then eqs v w else false.
Proof.
  destruct (Z.eqb_spec c d) as [->|N].
  - destruct (eqs v w) eqn:E; [apply eqs_spec in E; apply eqs_spec; congruence|]. apply not_true_is_false. intros H. apply eqs_spec in H.
    injection H as H. apply eqs_spec in H. congruence.
  - apply not_true_is_false. intros H. apply eqs_spec in H. congruence.
Qed.
Lemma eqs_snoc c d v w : eqs (v ++ [c]) (w ++ [d]) = if c =? d then eqs v w else false.
Proof.
  destruct (Z.eqb_spec c d) as [->|N].
  - destruct (eqs v w) eqn:E; [apply eqs_spec in E; apply eqs_spec; congruence|]. apply not_true_is_false. intros H. apply eqs_spec in H.
    apply app_inj_tail in H as (H & _). apply eqs_spec in H. congruence.
  - apply not_true_is_false. intros H. apply eqs_spec in H. apply app_inj_tail in H. tauto.
Qed.
Lemma eq_h_ok v : forall w pre1 post1 pre2 post2 fuel k e j,
  length v = length w -> zlen pre1 = j -> zlen pre2 = k + j -> e = j + zlen v -> (length v < fuel)%nat ->
  eq_h fuel (pre1 ++ v ++ post1) (pre2 ++ w ++ post2) k e j = Ret (eqs v w).
Proof.
  induction v as [|c v IH]; intros [|d w] pre1 post1 pre2 post2 [|fuel] k e j L P1 P2 -> Hf; cbn [length] in *; try lia; cbn [eq_h].
  - rewrite zl_nil. destruct (Z.eqb_spec j (j + 0)); [reflexivity|lia].
  - rewrite zlen_cons. pose proof (zlen_nonneg v). destruct (Z.eqb_spec j (j + (1 + zlen v))); [lia|].
    rewrite <- !app_comm_cons, !sub_mid by lia. cbn [bind]. rewrite eqs_cons. destruct (Z.eqb_spec c d); [|reflexivity].
    rewrite (app_cons_assoc pre1), (app_cons_assoc pre2). apply IH; rewrite ?zlen_snoc; lia.
Qed.
Lemma cmp_h_ok v : forall w pre1 post1 pre2 post2 fuel k e j,
  length v = length w -> zlen pre1 = j -> zlen pre2 = k + j -> e = j + zlen v -> (length v < fuel)%nat ->
  cmp_h fuel (pre1 ++ v ++ post1) (pre2 ++ w ++ post2) k e j = Ret (eqs v w).
Proof.
  induction v as [|c v IH]; intros [|d w] pre1 post1 pre2 post2 [|fuel] k e j L P1 P2 -> Hf; cbn [length] in *; try lia; cbn [cmp_h]; rewrite Z.geb_leb.
  - rewrite zl_nil. destruct (Z.leb_spec (j + 0) j); [reflexivity|lia].
  - rewrite zlen_cons. pose proof (zlen_nonneg v). destruct (Z.leb_spec (j + (1 + zlen v)) j); [lia|].
    rewrite <- !app_comm_cons, !sub_mid by lia. cbn [bind]. rewrite eqs_cons. destruct (Z.eqb_spec c d); [|reflexivity].
    rewrite (app_cons_assoc pre1), (app_cons_assoc pre2). apply IH; rewrite ?zlen_snoc; lia.
Qed.

(** *** Searching: at which positions does a non-empty word occur *)
Definition starts (w t : list Z) : bool := (zlen w <=? zlen t) && eqs w (firstn (length w) t).
Lemma starts_spec w t : starts w t = true <-> exists b, t = w ++ b.
Proof.
  unfold starts. rewrite Bool.andb_true_iff, eqs_spec, Z.leb_le. split.
  - intros (H1 & H2). exists (skipn (length w) t). rewrite H2 at 1. now rewrite firstn_skipn.
  - intros (b & ->). rewrite zlen_app, firstn_exact. pose proof (zlen_nonneg b). split; [lia|reflexivity].
Qed.
(** shortest prefix after which w occurs *)
Fixpoint find_at (w t : list Z) : option (list Z) :=
  if starts w t then Some [] else match t with [] => None | c :: t => match find_at w t with Some pre => Some (c :: pre) | None => None end end.
Lemma find_at_some w t pre : find_at w t = Some pre -> occurs_after w t pre /\ forall pre', occurs_after w t pre' -> zlen pre <= zlen pre'.
Proof.
  revert pre. induction t as [|c t IH]; intros pre H; cbn [find_at] in H.
  - destruct (starts w []) eqn:E; [|discriminate]. injection H as <-. apply starts_spec in E. split; [exact E|]. intros. rewrite zl_nil. apply zlen_nonneg.
  - destruct (starts w (c :: t)) eqn:E.
    + injection H as <-. apply starts_spec in E. split; [exact E|]. intros. rewrite zl_nil. apply zlen_nonneg.
    + destruct (find_at w t) as [q|] eqn:F; [|discriminate]. injection H as <-. destruct (IH _ eq_refl) as ((suf & ->) & M). split; [now exists suf|].
      intros pre' (suf' & H). destruct pre' as [|d pre'].
      * exfalso. cbn [app] in H. rewrite (proj2 (starts_spec w _)) in E; [discriminate|]. now exists suf'.
      * injection H as -> H. rewrite !zlen_cons. specialize (M pre' (ex_intro _ suf' H)). lia.
Qed.
Lemma find_at_none w t : find_at w t = None -> forall pre, ~ occurs_after w t pre.
Proof.
  induction t as [|c t IH]; intros H pre (suf & E); cbn [find_at] in H.
  - destruct pre; [|discriminate E]. cbn [app] in E. rewrite (proj2 (starts_spec w _)) in H; [discriminate|]. now exists suf.
  - destruct pre as [|d pre].
    + cbn [app] in E. rewrite (proj2 (starts_spec w _)) in H; [discriminate|]. now exists suf.
    + destruct (starts w (c :: t)); [discriminate|]. destruct (find_at w t); [discriminate|]. injection E as -> E. apply (IH eq_refl pre). now exists suf.
Qed.
Lemma find_at_short w t : zlen t < zlen w -> find_at w t = None.
Proof.
  induction t as [|c t IH]; intros H; cbn [find_at].
  - unfold starts. destruct (Z.leb_spec (zlen w) (@zlen Z [])); [lia|]. reflexivity.
  - unfold starts. destruct (Z.leb_spec (zlen w) (zlen (c :: t))); [lia|]. cbn [andb]. rewrite zlen_cons in H. now rewrite IH by lia.
Qed.
(** the test made at one position: last character first, then the others *)
Lemma test_at x w' t pre post k fuel : let w := w' ++ [x] in zlen w <= zlen t -> zlen pre = k -> (length w' < fuel)%nat ->
  (do c1 <- sub_raw w (zlen w - 1); do c2 <- sub_raw (pre ++ t ++ post) (k + (zlen w - 1));
   (if c1 =? c2 then cmp_h fuel w (pre ++ t ++ post) k (zlen w - 1) 0 else Ret false)) = Ret (starts w t).
Proof.
  intros w H P Hf. set (t1 := firstn (length w') t). set (r := skipn (length w') t).
  assert (E : t = t1 ++ r) by (symmetry; apply firstn_skipn).
  assert (Lw : zlen w = zlen w' + 1) by (unfold w; now rewrite zlen_snoc).
  assert (L1 : length t1 = length w') by (unfold t1; rewrite firstn_length; unfold zlen in *; lia).
  clearbody r. destruct r as [|y r].
  { exfalso. rewrite app_nil_r in E. rewrite E in H. unfold zlen in *. lia. }
  assert (Zt1 : zlen t1 = zlen w') by (unfold zlen; now rewrite L1).
  assert (S1 : sub_raw w (zlen w - 1) = Ret x) by (unfold w; apply sub_mid; rewrite zlen_snoc; lia). rewrite S1. cbn [bind].
  assert (S2 : sub_raw (pre ++ t ++ post) (k + (zlen w - 1)) = Ret y).
  { rewrite E, <- app_assoc, app_assoc, <- app_comm_cons. apply sub_mid. rewrite zlen_app. lia. } rewrite S2. cbn [bind].
  assert (St : starts w t = if x =? y then eqs w' t1 else false).
  { unfold starts. destruct (Z.leb_spec (zlen w) (zlen t)); [|lia]. cbn [andb].
    assert (F : firstn (length w) t = t1 ++ [y]).
    { rewrite E, app_cons_assoc. replace (length w) with (length (t1 ++ [y])) by (unfold w; rewrite !app_length; cbn [length]; lia). apply firstn_exact. }
    rewrite F. apply eqs_snoc. }
  rewrite St. destruct (x =? y); [|reflexivity].
  rewrite E, <- app_assoc. change w with ([] ++ w' ++ [x]). apply cmp_h_ok; cbn [length]; rewrite ?zl_nil; try lia.
  cbn [app]. fold w. lia.
Qed.
Lemma last_split {A} (w : list A) : w <> [] -> exists w' x, w = w' ++ [x].
Proof. intros H. destruct (exists_last H) as (w' & x & ->). eauto. Qed.
Lemma issub_ok w t : w <> [] -> forall pre post k fuel stop2, zlen pre = k -> (length t < fuel)%nat -> stop2 = k + zlen t - zlen w ->
  issub fuel w (pre ++ t ++ post) (zlen w - 1) stop2 k = Ret (match find_at w t with Some _ => true | None => false end).
Proof.
  intros Nw. destruct (last_split w Nw) as (w' & x & Ew). induction t as [|c t IH]; intros pre post k [|fuel] stop2 P Hf ->; cbn [length] in *; try lia; cbn [issub].
  - destruct (Z.leb_spec k (k + @zlen Z [] - zlen w)) as [H|H].
    + exfalso. rewrite Ew, zlen_snoc, zl_nil in H. pose proof (zlen_nonneg w'). lia.
    + rewrite find_at_short by lia. reflexivity.
  - destruct (Z.leb_spec k (k + zlen (c :: t) - zlen w)) as [H|H].
    + pose proof (test_at x w' (c :: t) pre post k (loop (zlen w - 1))) as T. rewrite <- Ew in T.
      specialize (T ltac:(lia) P). rewrite (Z.add_comm k) in T.
      assert (Hl : (length w' < loop (zlen w - 1))%nat) by (unfold loop; rewrite Ew, zlen_snoc; unfold zlen; lia). specialize (T Hl).
      destruct (sub_raw w (zlen w - 1)) as [c1| | |]; cbn [bind] in T |- *; try discriminate.
      destruct (sub_raw (pre ++ (c :: t) ++ post) (zlen w - 1 + k)) as [c2| | |]; cbn [bind] in T |- *; try discriminate.
      rewrite T. cbn [bind find_at]. destruct (starts w (c :: t)); [reflexivity|].
      rewrite <- app_comm_cons, app_cons_assoc, IH; [destruct (find_at w t); reflexivity|rewrite zlen_snoc; lia|lia|rewrite zlen_cons; lia].
    + rewrite find_at_short by lia. reflexivity.
Qed.
Lemma position_h_ok w t : w <> [] -> forall pre post k fuel i n stop2, zlen pre = k -> (length t < fuel)%nat -> stop2 = k + zlen t - (zlen w - 1) - 1 ->
  position_h fuel w (pre ++ t ++ post) i n (zlen w - 1) stop2 k =
  Ret (match find_at w t with
       | Some q => ((pre ++ t ++ post, i, k + zlen q - i), (pre ++ t ++ post, k + zlen q, n - (k + zlen q - i)))
       | None => ((pre ++ t ++ post, i, n), (pre ++ t ++ post, i + n, 0))
       end).
Proof.
  intros Nw. destruct (last_split w Nw) as (w' & x & Ew). induction t as [|c t IH]; intros pre post k [|fuel] i n stop2 P Hf ->; cbn [length] in *; try lia; cbn [position_h]; rewrite Z.gtb_ltb.
  - destruct (Z.ltb_spec (k + @zlen Z [] - (zlen w - 1) - 1) k) as [H|H].
    + rewrite find_at_short by lia. reflexivity.
    + exfalso. rewrite Ew, zlen_snoc, zl_nil in H. pose proof (zlen_nonneg w'). lia.
  - destruct (Z.ltb_spec (k + zlen (c :: t) - (zlen w - 1) - 1) k) as [H|H].
    + rewrite find_at_short by lia. reflexivity.
    + pose proof (test_at x w' (c :: t) pre post k (loop (zlen w - 1))) as T. rewrite <- Ew in T. specialize (T ltac:(lia) P).
      assert (Hl : (length w' < loop (zlen w - 1))%nat) by (unfold loop; rewrite Ew, zlen_snoc; unfold zlen; lia). specialize (T Hl).
      destruct (sub_raw w (zlen w - 1)) as [c1| | |]; cbn [bind] in T |- *; try discriminate.
      destruct (sub_raw (pre ++ (c :: t) ++ post) (k + (zlen w - 1))) as [c2| | |]; cbn [bind] in T |- *; try discriminate.
      rewrite T. cbn [bind find_at]. destruct (starts w (c :: t)).
      * rewrite zl_nil, Z.add_0_r. reflexivity.
      * rewrite <- app_comm_cons, app_cons_assoc, IH; [|rewrite zlen_snoc; lia|lia|rewrite zlen_cons; lia].
        destruct (find_at w t) as [q|]; [|reflexivity]. rewrite zlen_cons. now replace (k + (1 + zlen q)) with (k + 1 + zlen q) by lia.
Qed.
Lemma find_h_ok p v : forall pre fuel j e, j = zlen pre -> e = zlen pre + zlen v -> (length v < fuel)%nat ->
  find_h fuel p (pre ++ v) e j = Ret (match dw (fun c => negb (p c)) v with [] => None | _ => Some (zlen pre + zlen (tw (fun c => negb (p c)) v)) end).
Proof.
  induction v as [|c v IH]; intros pre [|fuel] j e -> -> Hf; cbn [length] in *; try lia; cbn [find_h tw dw].
  - rewrite zl_nil, Z.add_0_r, Z.geb_leb, Z.leb_refl. reflexivity.
  - pose proof (zlen_nonneg v). rewrite zlen_cons, Z.geb_leb. destruct (Z.leb_spec (zlen pre + (1 + zlen v)) (zlen pre)); [lia|].
    rewrite sub_mid by reflexivity. cbn [bind]. destruct (p c); cbn [negb].
    + rewrite zl_nil, Z.add_0_r. reflexivity.
    + rewrite app_cons_assoc, IH; [|rewrite zlen_snoc; lia..|lia]. destruct (dw _ v); [reflexivity|]. rewrite zlen_snoc, zlen_cons. do 2 f_equal. lia.
Qed.
