(** C08: structural equality, comparison and hashing are consistent. *)
From Verif Require Import Base ArrayLib Str_Model Str_Proofs Str_Props Value_Model Value_Spec Value_Proofs.

(** *** Equality (=, <>).  Full statement: for all values without functions, sml_equal returns true
    exactly if the values are structurally equal.  Restricted to strings shorter than 2^31 bytes
    (C07_equal_refuted) and reals other than NaN (C08_nan_refuted).  [n] bounds the recursion depth. *)
Theorem C08_equality_partial : forall m v1 v2 t1 t2, wf_mem m -> den m v1 t1 -> den m v2 t2 -> ordinary t1 -> ordinary t2 ->
  exists n b, (forall fuel, (n <= fuel)%nat -> sml_equal fuel m v1 v2 = Ret b /\ sml_not_equal fuel m v1 v2 = Ret (negb b)) /\
    (b = true <-> same t1 t2).
Proof.
  intros m v1 v2 t1 t2 W D1 D2 O1 O2.
  assert (K : forall fuel, (S (depth t1) <= fuel)%nat -> eq_ok (sml_equal_aux fuel m v1 v2) t1 t2).
  { intros fuel H. apply equal_ok; try assumption; lia. }
  destruct (K _ (le_n _)) as (b & E & Hb). exists (S (depth t1)), b. split; [|assumption].
  intros fuel H. destruct (K fuel H) as (b' & E' & Hb').
  assert (b' = b) as ->. { destruct b, b'; intuition congruence. }
  unfold sml_equal, sml_not_equal. rewrite E'. now split.
Qed.

(** structural equality is an equivalence *)
Theorem C08_same_equivalence : (forall t, same t t) /\ (forall t1 t2, same t1 t2 -> same t2 t1) /\
  (forall t1 t2 t3, same t1 t2 -> same t2 t3 -> same t1 t3).
Proof.
  split; [exact same_refl|]. split.
  - induction t1 as [n|s|d|a|a|a|t l IH] using tree_rect'; intros t2 S; inversion S as [| |? ? E| | | |? ? l2 F]; subst; constructor; auto.
    clear S. induction F as [|x y l l2 A F IHF]; constructor; inversion IH; subst; auto.
  - induction t1 as [n|s|d|a|a|a|t l IH] using tree_rect'; intros t2 t3 S S'; inversion S as [| |? ? E| | | |? ? l2 F]; subst; inversion S' as [| |? ? E'| | | |? ? l3 F']; subst; constructor; try congruence.
    clear S S'. revert l3 F'. induction F as [|x y l l2 A F IHF]; intros l3 F'; inversion F'; subst; constructor; inversion IH; subst; eauto.
Qed.

(** *** A small memory for examples *)
Definition ex_mem (l : list (Z * block)) : mem :=
  Mem (fun v => match find (fun p => fst p =? v) l with Some (_, b) => Some b | None => None end) 100000.
Definition ex_block_ok (b : block) : bool :=
  match b with
  | Fields g l => (0 <=? g) && (g <=? 251) && (zlen l <? 18014398509481984)
  | Bytes _ _ => true
  end.
Lemma ex_mem_wf l : forallb (fun p => negb (Z.odd (fst p)) && negb ((100000 <=? fst p) && (fst p <=? 102040)) && ex_block_ok (snd p)) l = true ->
  wf_mem (ex_mem l).
Proof.
  intros H. split; [reflexivity|]. intros v b B. unfold ex_mem in B. cbn [blk] in B.
  destruct (find _ l) as [[v' b']|] eqn:F; [|discriminate]. injection B as ->.
  apply find_some in F as [I E]. cbn in E. apply Z.eqb_eq in E. subst v'.
  rewrite forallb_forall in H. specialize (H _ I). cbn [fst snd] in H.
  destruct (Z.odd v); [discriminate|]. split; [reflexivity|]. split.
  - unfold is_atom, atom, ex_mem. cbn [atom0]. destruct ((100000 <=? v) && (v <=? 102040)) eqn:C; [discriminate|lia].
  - intros t l0 ->. cbn [ex_block_ok] in H. change (2 ^ 54) with 18014398509481984. lia.
Qed.

(** NaN is equal to itself or not depending on sharing: neither the same as any structural equality *)
Theorem C08_nan_refuted : exists m v1 v2 d, wf_mem m /\ den m v1 (TReal d) /\ den m v2 (TReal d) /\ is_nan d /\
  sml_equal 1 m v1 v1 = Ret true /\ sml_equal 1 m v1 v2 = Ret false.
Proof.
  set (nan := 9221120237041090560).
  exists (ex_mem [(8, Bytes 254 (le_bytes 8 nan)); (24, Bytes 254 (le_bytes 8 nan))]), 8, 24, nan.
  split; [apply ex_mem_wf; reflexivity|]. split; [constructor; [reflexivity|unfold nan, two64; lia]|].
  split; [constructor; [reflexivity|unfold nan, two64; lia]|]. split; [split; [reflexivity|discriminate]|].
  split; reflexivity.
Qed.

(** *** Comparison *)
(** The order of trees is a total order whose equivalence is structural equality. *)
Lemma lcmp_same l1 : Forall (fun t1 => forall t2, comparable t1 t2 -> (tcmp t1 t2 = Eq <-> same t1 t2)) l1 ->
  forall l2, Forall2 comparable l1 l2 -> (lcmp l1 l2 = Eq <-> Forall2 same l1 l2).
Proof.
  induction 1 as [|x l1 Hx F IH]; intros l2 C; inversion C as [|? y ? l2' Cx C']; subst; cbn [lcmp].
  - split; constructor.
  - specialize (IH l2' C'). specialize (Hx y Cx). destruct (tcmp x y) eqn:E.
    + rewrite IH. split; [intros; constructor; [now apply Hx|assumption]|now inversion 1].
    + split; [discriminate|]. inversion 1; subst. assert (Lt = Eq) by now apply Hx. discriminate.
    + split; [discriminate|]. inversion 1; subst. assert (Gt = Eq) by now apply Hx. discriminate.
Qed.
Lemma tcmp_same t1 : forall t2, comparable t1 t2 -> (tcmp t1 t2 = Eq <-> same t1 t2).
Proof.
  induction t1 as [n|s|d|a|a|a|t l IH] using tree_rect'; intros t2 C; inversion C as [| | | |? b ? l2 K]; subst.
  - cbn [tcmp]. rewrite Z.compare_eq_iff. split; [intros ->; constructor|now inversion 1].
  - cbn [tcmp]. rewrite lex_eq. split; [intros ->; constructor|now inversion 1].
  - cbn [tcmp]. rewrite Z.compare_eq_iff. split; [now constructor|now inversion 1].
  - cbn [tcmp]. rewrite Z.compare_eq_iff. split; [intros ->; constructor|now inversion 1].
  - rewrite tcmp_node. destruct (Z.compare_spec t b) as [->|L|L]; [|split; [discriminate|inversion 1; lia]..].
    assert (LEN : forall l1 l2 : list tree, Forall2 same l1 l2 -> zlen l1 = zlen l2)
      by (clear; induction 1; [reflexivity|rewrite !zlen_cons; lia]).
    destruct (Z.compare_spec (zlen l) (zlen l2)) as [E|L|L];
      [|split; [discriminate|inversion 1 as [| | | | | |? ? ? F]; subst; apply LEN in F; lia]..].
    rewrite (lcmp_same l IH l2). { split; [now constructor|now inversion 1]. }
    apply K; [reflexivity|]. unfold zlen in E. lia.
Qed.
Lemma tcmp_anti t1 : forall t2, comparable t1 t2 -> tcmp t2 t1 = CompOpp (tcmp t1 t2).
Proof.
  induction t1 as [n|s|d|a|a|a|t l IH] using tree_rect'; intros t2 C; inversion C as [| | | |? b ? l2 K]; subst.
  - apply Z.compare_antisym.
  - cbn [tcmp]. now rewrite (proj1 (proj2 C07_lex_total)).
  - apply Z.compare_antisym.
  - apply Z.compare_antisym.
  - rewrite !tcmp_node. rewrite (Z.compare_antisym t b), (Z.compare_antisym (zlen l) (zlen l2)).
    destruct (Z.compare_spec t b) as [->|L|L]; try reflexivity. cbn [CompOpp].
    destruct (Z.compare_spec (zlen l) (zlen l2)) as [E|L|L]; try reflexivity. cbn [CompOpp].
    assert (Forall2 comparable l l2) as F by (apply K; [reflexivity|unfold zlen in E; lia]). clear - IH F.
    induction F as [|x y l l2 Cx F IHF]; [reflexivity|]. inversion IH; subst. cbn [lcmp].
    rewrite (H1 y Cx). destruct (tcmp x y); [cbn; auto|reflexivity|reflexivity].
Qed.
Definition trans_ok (c12 c23 c13 : comparison) : Prop :=
  (c12 = Eq -> c13 = c23) /\ (c23 = Eq -> c13 = c12) /\ (c12 = Lt -> c23 = Lt -> c13 = Lt) /\ (c12 = Gt -> c23 = Gt -> c13 = Gt).
Lemma trans_Z a b c : trans_ok (a ?= b) (b ?= c) (a ?= c).
Proof.
  unfold trans_ok. destruct (Z.compare_spec a b), (Z.compare_spec b c), (Z.compare_spec a c);
    repeat split; try congruence; subst; try lia; intros; exfalso; lia.
Qed.
Lemma trans_comb a b c a' b' c' : trans_ok a b c -> trans_ok a' b' c' ->
  trans_ok (match a with Eq => a' | Lt => Lt | Gt => Gt end) (match b with Eq => b' | Lt => Lt | Gt => Gt end) (match c with Eq => c' | Lt => Lt | Gt => Gt end).
Proof.
  unfold trans_ok. intros (A1 & A2 & A3 & A4) (B1 & B2 & B3 & B4).
  destruct a, b, c; try (specialize (A1 eq_refl)); try (specialize (A2 eq_refl)); try (specialize (A3 eq_refl eq_refl));
    try (specialize (A4 eq_refl eq_refl)); try discriminate; repeat split; try congruence; auto.
Qed.
Lemma lex_trans s : forall t u, trans_ok (lex s t) (lex t u) (lex s u).
Proof.
  induction s as [|x s IH]; intros [|y t] [|z u]; cbn [lex]; try (repeat split; congruence).
  exact (trans_comb _ _ _ _ _ _ (trans_Z x y z) (IH t u)).
Qed.
Lemma tcmp_trans t1 : forall t2 t3, comparable t1 t2 -> comparable t2 t3 -> comparable t1 t3 ->
  trans_ok (tcmp t1 t2) (tcmp t2 t3) (tcmp t1 t3).
Proof.
  induction t1 as [n|s|d|a|a|a|t l IH] using tree_rect'; intros t2 t3 C C' C'';
    inversion C as [| | | |? b ? l2 K]; subst; inversion C' as [| | | |? c ? l3 K']; subst; inversion C'' as [| | | |? ? ? ? K'']; subst.
  - apply trans_Z.
  - apply lex_trans.
  - apply trans_Z.
  - apply trans_Z.
  - rewrite !tcmp_node.
    destruct (Z.eq_dec t b) as [->|N1].
    2:{ pose proof (trans_Z t b c) as X. unfold trans_ok in *. 
        destruct (Z.compare_spec t b), (Z.compare_spec b c), (Z.compare_spec t c); subst; try lia; repeat split; try congruence; intros; try lia. }
    destruct (Z.eq_dec b c) as [->|N2].
    2:{ rewrite Z.compare_refl. destruct (Z.compare_spec b c); [contradiction| |];
        repeat split; try congruence. }
    rewrite Z.compare_refl.
    destruct (Z.eq_dec (zlen l) (zlen l2)) as [E1|N1].
    2:{ destruct (Z.compare_spec (zlen l) (zlen l2)), (Z.compare_spec (zlen l2) (zlen l3)), (Z.compare_spec (zlen l) (zlen l3));
        try lia; repeat split; try congruence; intros; lia. }
    destruct (Z.eq_dec (zlen l2) (zlen l3)) as [E2|N2].
    2:{ rewrite E1, Z.compare_refl. destruct (Z.compare_spec (zlen l2) (zlen l3)); [contradiction| |]; repeat split; try congruence. }
    rewrite E1, E2, Z.compare_refl.
    assert (Forall2 comparable l l2) as F by (apply K; [reflexivity|unfold zlen in *; lia]).
    assert (Forall2 comparable l2 l3) as F' by (apply K'; [reflexivity|unfold zlen in *; lia]).
    assert (Forall2 comparable l l3) as F'' by (apply K''; [reflexivity|unfold zlen in *; lia]).
    clear - IH F F' F''. revert l3 F' F''.
    induction F as [|x y l l2 Cx F IHF]; intros l3 F' F''; inversion F' as [|? z ? l3' C1 F1]; subst; [repeat split; congruence|].
    inversion F''; subst. inversion IH; subst. cbn [lcmp]. apply trans_comb; auto.
Qed.

Theorem C08_order_total :
  (forall t1 t2, comparable t1 t2 -> (tcmp t1 t2 = Eq <-> same t1 t2)) /\
  (forall t1 t2, comparable t1 t2 -> tcmp t2 t1 = CompOpp (tcmp t1 t2)) /\
  (forall t1 t2 t3, comparable t1 t2 -> comparable t2 t3 -> comparable t1 t3 ->
     tcmp t1 t2 <> Gt -> tcmp t2 t3 <> Gt -> tcmp t1 t3 <> Gt).
Proof.
  split; [exact tcmp_same|]. split; [exact tcmp_anti|].
  intros t1 t2 t3 C C' C'' H H'. destruct (tcmp_trans t1 t2 t3 C C' C'') as (A & B & D & _).
  destruct (tcmp t1 t2); [rewrite A by reflexivity; assumption| |now elim H].
  destruct (tcmp t2 t3); [rewrite B by reflexivity; discriminate|rewrite D by reflexivity; discriminate|now elim H'].
Qed.

(** compare_val computes this order *)
Theorem C08_compare_val : forall m v1 v2 t1 t2, wf_mem m -> den m v1 t1 -> den m v2 t2 -> comparable t1 t2 ->
  exists n, forall fuel, (n <= fuel)%nat ->
    (exists r, compare_val fuel m v1 v2 = Ret r /\ Z.sgn r = sign_of (tcmp t1 t2)) /\
    equal fuel m v1 v2 = Ret (match tcmp t1 t2 with Eq => true | _ => false end) /\
    lessthan fuel m v1 v2 = Ret (match tcmp t1 t2 with Lt => true | _ => false end) /\
    lessequal fuel m v1 v2 = Ret (match tcmp t1 t2 with Gt => false | _ => true end).
Proof.
  intros m v1 v2 t1 t2 W D1 D2 C. exists (S (depth t1)). intros fuel H.
  destruct (compare_ok m W fuel v1 v2 t1 t2) as (r & E & S & _); try assumption; try lia.
  unfold equal, lessthan, lessequal. rewrite E. cbn [bind]. split; [now exists r|].
  destruct (tcmp t1 t2); cbn [sign_of] in S; repeat split; f_equal; lia.
Qed.

(** The ML function compare returns the result as an ML integer.  Full statement: the sign is
    preserved for all comparable values.  It holds for values with integers between -2^61 and 2^61 *)
Theorem C08_compare_partial : forall m v1 v2 t1 t2, wf_mem m -> den m v1 t1 -> den m v2 t2 -> comparable t1 t2 ->
  modest t1 -> modest t2 ->
  exists n, forall fuel, (n <= fuel)%nat -> exists r, compare fuel m v1 v2 = Ret r /\ Z.sgn r = sign_of (tcmp t1 t2).
Proof.
  intros m v1 v2 t1 t2 W D1 D2 C M1 M2. exists (S (depth t1)). intros fuel H.
  destruct (compare_ok m W fuel v1 v2 t1 t2) as (r & E & S & B); try assumption; try lia.
  specialize (B (conj M1 M2)). exists r. unfold compare. rewrite E. cbn [bind]. split; [|assumption]. f_equal.
  unfold val_long, long_val. rewrite s64_id by (unfold in_long, two62, two63 in *; lia). lia.
Qed.
(** and fails for large integers: the largest integer comes out less than the smallest *)
Theorem C08_compare_refuted : exists m v1 v2 t1 t2, wf_mem m /\ den m v1 t1 /\ den m v2 t2 /\ comparable t1 t2 /\
  tcmp t1 t2 = Gt /\ forall fuel, (1 <= fuel)%nat -> compare fuel m v1 v2 = Ret (-1).
Proof.
  exists (ex_mem []), (2 * (two62 - 1) + 1), (2 * (- two62) + 1), (TInt (two62 - 1)), (TInt (- two62)).
  split; [apply ex_mem_wf; reflexivity|].
  split; [constructor; [reflexivity|unfold in_int, two62; lia]|]. split; [constructor; [reflexivity|unfold in_int, two62; lia]|].
  split; [constructor|]. split; [reflexivity|]. intros [|fuel] H; [lia|]. vm_compute. reflexivity.
Qed.

(** compare is not consistent with equality on references: it compares their contents *)
Theorem C08_compare_ref_refuted : exists m v1 v2 a1 a2, wf_mem m /\ den m v1 (TRef a1) /\ den m v2 (TRef a2) /\
  sml_equal 2 m v1 v2 = Ret false /\ compare 2 m v1 v2 = Ret 0.
Proof.
  exists (ex_mem [(8, Fields 250 [3]); (24, Fields 250 [3])]), 8, 24, 8, 24.
  split; [apply ex_mem_wf; reflexivity|]. split; [econstructor; reflexivity|]. split; [econstructor; reflexivity|].
  split; reflexivity.
Qed.

(** *** Hashing *)
(** It ends for every value, also cyclic ones and functions, for all limits; the result is a
    non-negative 30-bit integer. *)
Theorem C08_hash_total : forall m v count limit, well_formed m -> good_word m v ->
  exists n, forall fuel, (n <= fuel)%nat -> exists r, hash_univ_param fuel m count limit v = Ret r /\ 0 <= r < 2 ^ 30.
Proof.
  intros m v count limit W G. exists (S (Z.to_nat limit)). intros fuel H.
  destruct (hash_total m W fuel v (HS 0 limit count) G) as (s & E & _); [cbn; lia|].
  unfold hash_univ_param. rewrite E. cbn [bind]. eexists. split; [reflexivity|].
  change 1073741823 with (Z.ones 30). rewrite Z.land_ones by lia. apply Z.mod_pos_bound. reflexivity.
Qed.

(** The hash depends only on the tree, not on addresses, sharing or memory: also not on the addresses of
    references and abstract objects.  In particular a garbage collection does not change it. *)
Theorem C08_hash_structural : forall m1 m2 v1 v2 t1 t2, wf_mem m1 -> wf_mem m2 -> den m1 v1 t1 -> den m2 v2 t2 -> alike t1 t2 ->
  forall fuel count limit, hash_univ_param fuel m1 count limit v1 = hash_univ_param fuel m2 count limit v2 /\
    hash_univ_safe_param fuel m1 count limit v1 = hash_univ_safe_param fuel m2 count limit v2.
Proof.
  intros m1 m2 v1 v2 t1 t2 W1 W2 D1 D2 A fuel count limit. unfold hash_univ_param, hash_univ_safe_param.
  now rewrite !(hash_alike m1 m2 W1 W2 fuel _ v1 v2 t1 t2 _ D1 D2 A).
Qed.

(** Equal values have equal hashes.  Full statement: for all ordinary values v1, v2 with sml_equal true.
    It holds for values without the real number ~0.0 *)
Theorem C08_equal_hash_partial : forall m v1 v2 t1 t2, wf_mem m -> den m v1 t1 -> den m v2 t2 -> ordinary t1 -> ordinary t2 ->
  no_minus_zero t1 -> no_minus_zero t2 ->
  (exists n, forall fuel, (n <= fuel)%nat -> sml_equal fuel m v1 v2 = Ret true) ->
  forall fuel count limit, hash_univ_param fuel m count limit v1 = hash_univ_param fuel m count limit v2.
Proof.
  intros m v1 v2 t1 t2 W D1 D2 O1 O2 Z1 Z2 [n E] fuel count limit.
  assert (same t1 t2) as S.
  { destruct (C08_equality_partial m v1 v2 t1 t2 W D1 D2 O1 O2) as (k & b & Eb & Hb). apply Hb.
    destruct (Eb (max n k)) as [E1 _]; [lia|]. rewrite E in E1 by lia. congruence. }
  apply (C08_hash_structural m m v1 v2 t1 t2); try assumption. now apply (same_alike m t1 v1 v2 t2).
Qed.

(** It is false for reals: 0.0 and ~0.0 are equal but have different hashes; a Polyhash table made by
    mkPolyTable with real keys keeps both. *)
Theorem C08_equal_hash_refuted : exists m v1 v2 d1 d2, wf_mem m /\ den m v1 (TReal d1) /\ den m v2 (TReal d2) /\
  ~ is_nan d1 /\ ~ is_nan d2 /\ (forall fuel, (1 <= fuel)%nat -> sml_equal fuel m v1 v2 = Ret true) /\
  (forall fuel, (1 <= fuel)%nat -> polyHash fuel m v1 = Ret 0 /\ polyHash fuel m v2 = Ret 128).
Proof.
  exists (ex_mem [(8, Bytes 254 (le_bytes 8 0)); (24, Bytes 254 (le_bytes 8 two63))]), 8, 24, 0, two63.
  split; [apply ex_mem_wf; reflexivity|].
  split; [constructor; [reflexivity|unfold two64; lia]|]. split; [constructor; [reflexivity|unfold two63, two64; lia]|].
  split; [now intros [? ?]|]. split; [now intros [? ?]|].
  split; [intros [|fuel] H; [lia|reflexivity]|]. intros [|fuel] H; [lia|]. split; reflexivity.
Qed.

(** *** Examples *)
(* SOME ("ab", [1]) twice, with and without sharing of the string; nil = Atom 0, :: = tag 1 *)
Definition ex1 : mem := ex_mem
  [(8, Bytes 253 [97; 98; 0; 0; 0; 0; 0; 5]); (24, Bytes 253 [97; 98; 0; 0; 0; 0; 0; 5]);
   (40, Fields 1 [3; 100000]); (64, Fields 0 [8; 40]); (88, Fields 0 [24; 40]); (112, Fields 1 [64]); (128, Fields 1 [88])].
Example values_example :
  wf_mem ex1 /\
  den ex1 112 (TNode 1 [TNode 0 [TStr [97; 98]; TNode 1 [TInt 1; TNode 0 []]]]) /\
  den ex1 128 (TNode 1 [TNode 0 [TStr [97; 98]; TNode 1 [TInt 1; TNode 0 []]]]) /\
  sml_equal 9 ex1 112 128 = Ret true /\ polyHash 9 ex1 112 = polyHash 9 ex1 128 /\ compare 9 ex1 112 128 = Ret 0.
Proof.
  assert (R : rep [97; 98; 0; 0; 0; 0; 0; 5] [97; 98]).
  { split; [reflexivity|]. split; [|unfold maxlen; cbn; lia]. constructor; [unfold isbyte; lia|]. constructor; [unfold isbyte; lia|constructor]. }
  assert (I1 : den ex1 3 (TInt 1)) by (constructor; [reflexivity|unfold in_int, two62; lia]).
  assert (N0 : den ex1 100000 (TNode 0 [])) by (constructor; [reflexivity|lia]).
  assert (L : den ex1 40 (TNode 1 [TInt 1; TNode 0 []])).
  { apply (den_node ex1 40 1 [3; 100000]); [reflexivity|unfold Closure_tag; lia|discriminate|].
    constructor; [exact I1|]. constructor; [exact N0|constructor]. }
  assert (S1 : den ex1 8 (TStr [97; 98])) by (eapply den_str; [reflexivity|exact R]).
  assert (S2 : den ex1 24 (TStr [97; 98])) by (eapply den_str; [reflexivity|exact R]).
  split; [apply ex_mem_wf; reflexivity|]. split; [|split].
  - apply (den_node ex1 112 1 [64]); [reflexivity|unfold Closure_tag; lia|discriminate|]. constructor; [|constructor].
    apply (den_node ex1 64 0 [8; 40]); [reflexivity|unfold Closure_tag; lia|discriminate|].
    constructor; [exact S1|]. constructor; [exact L|constructor].
  - apply (den_node ex1 128 1 [88]); [reflexivity|unfold Closure_tag; lia|discriminate|]. constructor; [|constructor].
    apply (den_node ex1 88 0 [24; 40]); [reflexivity|unfold Closure_tag; lia|discriminate|].
    constructor; [exact S2|]. constructor; [exact L|constructor].
  - split; [vm_compute; reflexivity|]. split; vm_compute; reflexivity.
Qed.
(* a cyclic value: val r = ref NONE; r := SOME r *)
Example hash_cycle_example : polyHash 600 (ex_mem [(8, Fields 250 [24]); (24, Fields 1 [8])]) 24 = Ret 269.
Proof. vm_compute. reflexivity. Qed.

Print Assumptions C08_equality_partial.
Print Assumptions C08_same_equivalence.
Print Assumptions C08_nan_refuted.
Print Assumptions C08_order_total.
Print Assumptions C08_compare_val.
Print Assumptions C08_compare_partial.
Print Assumptions C08_compare_refuted.
Print Assumptions C08_compare_ref_refuted.
Print Assumptions C08_hash_total.
Print Assumptions C08_hash_structural.
Print Assumptions C08_equal_hash_partial.
Print Assumptions C08_equal_hash_refuted.
