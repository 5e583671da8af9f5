(** Proofs about string blocks. *)
From Verif Require Import Base ArrayLib Str_Model.

Definition maxlen : Z := 144115188075855863. (* 8 * Max_wosize - 1 *)
Definition isbyte (c : Z) : Prop := 0 <= c < 256.

(** a block holding the bytes [s]: padded to a multiple of the word size; the last byte tells the
    number of bytes of padding before it *)
Definition padding (n : Z) : list Z := repeat 0 (Z.to_nat (7 - n mod 8)) ++ [7 - n mod 8].
Definition rep (b : list Z) (s : list Z) : Prop :=
  b = s ++ padding (zlen s) /\ Forall isbyte s /\ zlen s <= maxlen.

Lemma zlen_padding n : zlen (padding n) = 8 - n mod 8.
Proof. unfold padding. rewrite zlen_app, zlen_repeat. change (zlen [7 - n mod 8]) with 1. lia. Qed.

Lemma rep_zlen b s : rep b s -> zlen b = zlen s + (8 - zlen s mod 8).
Proof. intros (-> & _). rewrite zlen_app, zlen_padding. lia. Qed.

Lemma zget_rep b s i : rep b s -> 0 <= i < zlen s -> zget b i = zget s i.
Proof. intros (-> & _) H. rewrite zget_app. destruct (Z.ltb_spec i (zlen s)); [reflexivity|lia]. Qed.

Lemma rep_ext b s : Forall isbyte s -> zlen s <= maxlen -> zlen b = zlen s + (8 - zlen s mod 8) ->
  (forall i, 0 <= i < zlen s -> zget b i = zget s i) ->
  (forall i, zlen s <= i < zlen b -> zget b i = Some (if i =? zlen b - 1 then 7 - zlen s mod 8 else 0)) ->
  rep b s.
Proof.
  intros F M L H1 H2. split; [|now split]. apply list_ext. intros k.
  destruct (Z.lt_ge_cases k 0) as [N|N].
  { rewrite !zget_none by lia. reflexivity. }
  rewrite zget_app. destruct (Z.ltb_spec k (zlen s)); [now apply H1|].
  unfold padding. rewrite zget_app, zlen_repeat, zget_repeat.
  destruct (Z.lt_ge_cases k (zlen b)) as [I|I].
  - rewrite H2 by lia. destruct (Z.eqb_spec k (zlen b - 1)).
    + destruct (Z.ltb_spec (k - zlen s) (Z.of_nat (Z.to_nat (7 - zlen s mod 8)))); [lia|].
      replace (k - zlen s - Z.of_nat (Z.to_nat (7 - zlen s mod 8))) with 0 by lia. reflexivity.
    + destruct (Z.ltb_spec (k - zlen s) (Z.of_nat (Z.to_nat (7 - zlen s mod 8)))); [|lia].
      destruct (Z.leb_spec 0 (k - zlen s)); [reflexivity|lia].
  - rewrite zget_none by lia.
    destruct (Z.ltb_spec (k - zlen s) (Z.of_nat (Z.to_nat (7 - zlen s mod 8)))); [lia|].
    rewrite zget_none; [reflexivity|]. change (zlen [7 - zlen s mod 8]) with 1. lia.
Qed.

Lemma rep_get_pad b s i : rep b s -> zlen s <= i < zlen b ->
  zget b i = Some (if i =? zlen b - 1 then 7 - zlen s mod 8 else 0).
Proof.
  intros R I. pose proof (rep_zlen _ _ R) as L. destruct R as (E & _).
  replace (zget b i) with (zget (s ++ padding (zlen s)) i) by now rewrite E. clear E. rewrite zget_app.
  destruct (Z.ltb_spec i (zlen s)); [lia|]. unfold padding. rewrite zget_app, zlen_repeat, zget_repeat.
  destruct (Z.eqb_spec i (zlen b - 1)).
  - destruct (Z.ltb_spec (i - zlen s) (Z.of_nat (Z.to_nat (7 - zlen s mod 8)))); [lia|].
    replace (i - zlen s - Z.of_nat (Z.to_nat (7 - zlen s mod 8))) with 0 by lia. reflexivity.
  - destruct (Z.ltb_spec (i - zlen s) (Z.of_nat (Z.to_nat (7 - zlen s mod 8)))); [|lia].
    destruct (Z.leb_spec 0 (i - zlen s)); [reflexivity|lia].
Qed.

Lemma string_length_ok b s : rep b s -> string_length b = Ret (zlen s).
Proof.
  intros R. pose proof (rep_zlen _ _ R) as L. pose proof (zlen_nonneg s) as P.
  assert (zlen s <= maxlen) as M by apply R. unfold maxlen in M.
  unfold string_length, bosize. rewrite u64_id by (unfold two64; lia).
  unfold sub_raw. rewrite (rep_get_pad b s) by (assumption || lia).
  rewrite Z.eqb_refl. cbn [bind]. unfold schar. rewrite (proj2 (Z.ltb_lt _ _)) by lia.
  rewrite u64_id by (unfold two64; lia). f_equal. lia.
Qed.

Lemma rep_sub b s i : rep b s -> 0 <= i < zlen s -> exists c, sub_raw b i = Ret c /\ zget s i = Some c /\ isbyte c.
Proof.
  intros R I. destruct (zget_some s i I) as [c E]. exists c. unfold sub_raw. rewrite (zget_rep b s) by assumption.
  rewrite E. split; [reflexivity|]. split; [reflexivity|]. destruct R as (_ & F & _).
  rewrite Forall_forall in F. apply F. eapply zget_In, E.
Qed.

Lemma bcopy_ok src o1 dst o2 n : 0 <= n -> 0 <= o1 -> 0 <= o2 -> o1 + n <= zlen src -> o2 + n <= zlen dst ->
  exists r, bcopy src o1 dst o2 n = Ret r /\ zlen r = zlen dst /\
    forall i, zget r i = if (o2 <=? i) && (i <? o2 + n) then zget src (o1 + (i - o2)) else zget dst i.
Proof.
  intros Hn H1 H2 L1 L2. unfold bcopy.
  rewrite (proj2 (Z.ltb_ge n 0)), (proj2 (Z.ltb_ge o1 0)), (proj2 (Z.ltb_ge o2 0)) by lia.
  destruct (o1 + n >? zlen src) eqn:E1; [lia|]. destruct (o2 + n >? zlen dst) eqn:E2; [lia|].
  cbn [orb]. eexists. split; [reflexivity|].
  assert (LF : zlen (firstn (Z.to_nat o2) dst) = o2) by (unfold zlen in *; rewrite firstn_length; lia).
  assert (LM : zlen (firstn (Z.to_nat n) (skipn (Z.to_nat o1) src)) = n) by (unfold zlen in *; rewrite firstn_length, skipn_length; lia).
  assert (LS : zlen (skipn (Z.to_nat (o2 + n)) dst) = zlen dst - o2 - n) by (unfold zlen in *; rewrite skipn_length; lia).
  split; [rewrite !zlen_app; lia|].
  assert (GS : forall (l : list Z) (k i : Z), 0 <= k -> 0 <= i -> zget (skipn (Z.to_nat k) l) i = zget l (k + i)).
  { intros l k i Hk Hi. unfold zget. rewrite (proj2 (Z.ltb_ge i 0)), (proj2 (Z.ltb_ge (k + i) 0)) by lia.
    replace (Z.to_nat (k + i)) with (Z.to_nat k + Z.to_nat i)%nat by lia.
    generalize (Z.to_nat k) (Z.to_nat i). clear. intros k. revert l.
    induction k as [|k IH]; intros [|x l] i; cbn; try reflexivity; [now destruct i|apply IH]. }
  assert (GF : forall (l : list Z) (k i : Z), 0 <= i < k -> zget (firstn (Z.to_nat k) l) i = zget l i).
  { intros l k i Hi. unfold zget. rewrite (proj2 (Z.ltb_ge i 0)) by lia.
    assert (Z.to_nat i < Z.to_nat k)%nat by lia. revert H. generalize (Z.to_nat k) (Z.to_nat i). clear.
    intros k. revert l. induction k as [|k IH]; intros l i Hi; [lia|]. destruct l as [|x l]; [now destruct i|].
    destruct i as [|i]; [reflexivity|]. cbn. apply IH. lia. }
  intros i. destruct (Z.lt_ge_cases i 0).
  { rewrite zget_none by (rewrite !zlen_app; lia). rewrite (zget_none dst) by lia.
    destruct (Z.leb_spec o2 i); [lia|reflexivity]. }
  rewrite !zget_app, LF, LM.
  destruct (Z.ltb_spec i o2); destruct (Z.leb_spec o2 i); try lia; cbn [andb].
  - apply GF. lia.
  - destruct (Z.ltb_spec (i - o2) n); destruct (Z.ltb_spec i (o2 + n)); try lia.
    + rewrite GF by lia. rewrite GS by lia. reflexivity.
    + rewrite GS by lia. f_equal. lia.
Qed.

Lemma zlen_fresh junk n : 0 <= n -> zlen (fresh junk n) = n.
Proof. intros. unfold fresh, zlen. rewrite map_length, seq_length. lia. Qed.
Lemma fresh_bytes junk n : Forall isbyte (fresh junk n).
Proof. unfold fresh. apply Forall_forall. intros x (k & <- & _)%in_map_iff. unfold isbyte. lia. Qed.

Lemma update_raw_ok (b : list Z) i c : 0 <= i < zlen b -> exists b', update_raw b i c = Ret b' /\ zlen b' = zlen b /\
  forall k, zget b' k = if k =? i then Some c else zget b k.
Proof.
  intros H. destruct (zset_some b i c H) as (b' & E & L & G). exists b'. unfold update_raw. rewrite E. auto.
Qed.

(** the bytes of a list from position 0 on *)
Definition text (b : list Z) (n : Z) : list Z := firstn (Z.to_nat n) b.
Lemma zlen_text b n : 0 <= n <= zlen b -> zlen (text b n) = n.
Proof. intros. unfold text, zlen in *. rewrite firstn_length. lia. Qed.
Lemma zget_text b n i : 0 <= i < n -> zget (text b n) i = zget b i.
Proof.
  intros Hi. unfold text, zget. rewrite (proj2 (Z.ltb_ge i 0)) by lia.
  assert (Z.to_nat i < Z.to_nat n)%nat by lia. revert H. generalize (Z.to_nat n) (Z.to_nat i). clear.
  intros k. revert b. induction k as [|k IH]; intros l i Hi; [lia|]. destruct l as [|x l]; [now destruct i|].
  destruct i as [|i]; [reflexivity|]. cbn. apply IH. lia.
Qed.
Lemma Forall_zget (P : Z -> Prop) s : (forall i c, zget s i = Some c -> P c) -> Forall P s.
Proof. intros H. apply Forall_forall. intros c (i & E)%In_zget. eapply H, E. Qed.

Lemma alloc_ok junk n : 0 <= n <= maxlen ->
  exists b s, alloc_string junk n = Ret b /\ rep b s /\ zlen s = n.
Proof.
  intros H. unfold maxlen in H. unfold alloc_string. cbn zeta. rewrite (u64_id n) by (unfold two64; lia).
  rewrite u64_id by (unfold two64; lia).
  set (w := (n + 8) / 8). destruct (w >? 18014398509481983) eqn:E; [unfold w in *; lia|].
  pose proof (zlen_fresh junk (8 * w)) as LF.
  destruct (bcopy_ok (repeat 0 8) 0 (fresh junk (8 * w)) (8 * (w - 1)) 8) as (r & -> & L & G);
    try (unfold w in *; change (zlen (repeat 0 8)) with 8; lia).
  cbn [bind].
  destruct (update_raw_ok r (8 * w - 1) ((8 * w - 1 - n) mod 256)) as (b & -> & L' & G'); [unfold w in *; lia|].
  exists b, (text b n). split; [reflexivity|].
  assert (zlen b = 8 * w) as LB by (rewrite L', L; apply LF; unfold w; lia).
  assert (zlen (text b n) = n) as LT by (apply zlen_text; unfold w in *; lia).
  split; [|exact LT].
  assert (Hmod : 8 * w - 1 - n = 7 - n mod 8) by (unfold w; lia).
  apply rep_ext; rewrite ?LT.
  - apply Forall_zget. intros i c Hc. pose proof (zget_range _ _ _ Hc) as Ri. rewrite LT in Ri.
    rewrite zget_text in Hc by lia. rewrite G' in Hc.
    destruct (Z.eqb_spec i (8 * w - 1)); [injection Hc as <-; unfold isbyte; lia|].
    rewrite G in Hc. destruct ((8 * (w - 1) <=? i) && (i <? 8 * (w - 1) + 8)).
    + rewrite zget_repeat in Hc. destruct ((0 <=? _) && _) in Hc; [|discriminate]. injection Hc as <-. unfold isbyte. lia.
    + apply zget_In in Hc. pose proof (fresh_bytes junk (8 * w)) as F. rewrite Forall_forall in F. now apply F.
  - unfold maxlen. lia.
  - rewrite LB. unfold w. lia.
  - intros i Hi. symmetry. now apply zget_text.
  - intros i Hi. rewrite G'. rewrite LB. destruct (Z.eqb_spec i (8 * w - 1)).
    + f_equal. rewrite Hmod. apply Z.mod_small. lia.
    + rewrite G. assert ((8 * (w - 1) <=? i) && (i <? 8 * (w - 1) + 8) = true) as -> by (unfold w in *; lia).
      rewrite zget_repeat. assert ((0 <=? 0 + (i - 8 * (w - 1))) && (0 + (i - 8 * (w - 1)) <? Z.of_nat 8) = true) as -> by (unfold w in *; lia).
      reflexivity.
Qed.

(** writing inside the text keeps the block a string *)
Lemma rep_write b s b' s' : rep b s -> zlen b' = zlen b -> zlen s' = zlen s -> Forall isbyte s' ->
  (forall i, 0 <= i < zlen s -> zget b' i = zget s' i) ->
  (forall i, zlen s <= i -> zget b' i = zget b i) -> rep b' s'.
Proof.
  intros R Lb Ls F H1 H2. pose proof (rep_zlen _ _ R) as L. apply rep_ext; rewrite ?Ls, ?Lb; try assumption.
  - apply R.
  - intros i Hi. rewrite H2 by lia. now apply rep_get_pad.
Qed.
