(** C07: string representation: size and contents are recoverable, comparison is lexicographic. *)
From Verif Require Import Base ArrayLib Str_Model Str_Proofs.

(** *** Specification: byte sequences *)
Definition bytes (s : list Z) : Prop := forall c, In c s -> 0 <= c <= 255.
(** 2^57 - 9 is the largest length that fits a block (String.maxSize) *)
Definition fits (n : Z) : Prop := 0 <= n <= 144115188075855863.

(** what a program can see of a string block: its length and its characters *)
Definition shows (b : list Z) (s : list Z) : Prop :=
  string_length b = Ret (zlen s) /\
  (forall i, 0 <= i < zlen s -> get_nth_char b i = Ret (znth 0 s i)) /\ bytes s.

(** operations on the strings of a program, addressed by number *)
Inductive op :=
| Create (n : Z)                       (* create_string n *)
| CopyC (cs : list Z)                  (* copy_string: a C string *)
| SetChar (k i c : Z)                  (* set_nth_char *)
| Fill (k off len c : Z)               (* fill_string *)
| Blit (k1 o1 k2 o2 len : Z).          (* blit_string *)

(** effect on byte sequences; a created string has arbitrary contents of the right length *)
Definition overwrite (s : list Z) (off : Z) (piece : list Z) (s' : list Z) : Prop :=
  zlen s' = zlen s /\
  forall i, 0 <= i < zlen s -> znth 0 s' i = if (off <=? i) && (i <? off + zlen piece) then znth 0 piece (i - off) else znth 0 s i.
Definition replaces (st : list (list Z)) (k : Z) (s' : list Z) (st' : list (list Z)) : Prop :=
  zlen st' = zlen st /\ zget st' k = Some s' /\ forall j, j <> k -> zget st' j = zget st j.
Definition piece (s : list Z) (off len : Z) : list Z := firstn (Z.to_nat len) (skipn (Z.to_nat off) s).
Inductive step : list (list Z) -> op -> list (list Z) -> Prop :=
| s_create st n s : fits n -> zlen s = n -> step st (Create n) (st ++ [s])
| s_copy st cs : (forall c, In c cs -> 1 <= c <= 255) -> zlen cs < 2 ^ 31 -> step st (CopyC cs) (st ++ [cs])
| s_set st k i c s s' st' : zget st k = Some s -> 0 <= i < zlen s -> 0 <= c <= 255 ->
    overwrite s i [c] s' -> replaces st k s' st' -> step st (SetChar k i c) st'
| s_fill st k off len c s s' st' : zget st k = Some s -> 0 <= off -> 0 <= len -> off + len <= zlen s ->
    0 <= c <= 255 -> overwrite s off (repeat c (Z.to_nat len)) s' -> replaces st k s' st' -> step st (Fill k off len c) st'
| s_blit st k1 o1 k2 o2 len s1 s2 s' st' : zget st k1 = Some s1 -> zget st k2 = Some s2 ->
    0 <= o1 -> 0 <= o2 -> 0 <= len < 2 ^ 31 -> o1 + len <= zlen s1 -> o2 + len <= zlen s2 ->
    overwrite s2 o2 (piece s1 o1 len) s' -> replaces st k2 s' st' -> step st (Blit k1 o1 k2 o2 len) st'.
Inductive steps : list (list Z) -> list op -> list (list Z) -> Prop :=
| steps_nil st : steps st [] st
| steps_cons st o st1 ops st2 : step st o st1 -> steps st1 ops st2 -> steps st (o :: ops) st2.

(** the model: blocks by number *)
Definition nth_block (bs : list (list Z)) (k : Z) : outcome (list Z) := sub_raw bs k.
Definition model_step (junk : nat -> Z) (bs : list (list Z)) (o : op) : outcome (list (list Z)) :=
  match o with
  | Create n => do b <- create_string junk n; Ret (bs ++ [b])
  | CopyC cs => do b <- copy_string junk cs; Ret (bs ++ [b])
  | SetChar k i c => do b <- nth_block bs k; do b' <- set_nth_char b i c; update_raw bs k b'
  | Fill k off len c => do b <- nth_block bs k; do b' <- fill_string b off len c; update_raw bs k b'
  | Blit k1 o1 k2 o2 len =>
    do b1 <- nth_block bs k1; do b2 <- nth_block bs k2;
    do b' <- blit_string b1 o1 b2 o2 len; update_raw bs k2 b'
  end.
Fixpoint model_run (junks : nat -> nat -> Z) (bs : list (list Z)) (ops : list op) : outcome (list (list Z)) :=
  match ops with
  | [] => Ret bs
  | o :: ops => do bs <- model_step (junks (length ops)) bs o; model_run junks bs ops
  end.

(** the arguments of an operation are in range, given the lengths of the strings *)
Definition lengths (st : list (list Z)) : list Z := List.map zlen st.
Definition in_range (ls : list Z) (o : op) : Prop :=
  match o with
  | Create n => fits n
  | CopyC cs => (forall c, In c cs -> 1 <= c <= 255) /\ zlen cs < 2 ^ 31
  | SetChar k i c => exists n, zget ls k = Some n /\ 0 <= i < n /\ 0 <= c <= 255
  | Fill k off len c => exists n, zget ls k = Some n /\ 0 <= off /\ 0 <= len /\ off + len <= n /\ 0 <= c <= 255
  | Blit k1 o1 k2 o2 len => exists n1 n2, zget ls k1 = Some n1 /\ zget ls k2 = Some n2 /\ 0 <= o1 /\ 0 <= o2 /\
      0 <= len < 2 ^ 31 /\ o1 + len <= n1 /\ o2 + len <= n2
  end.
Definition new_lengths (ls : list Z) (o : op) : list Z :=
  match o with Create n => ls ++ [n] | CopyC cs => ls ++ [zlen cs] | _ => ls end.
Fixpoint all_in_range (ls : list Z) (ops : list op) : Prop :=
  match ops with [] => True | o :: ops => in_range ls o /\ all_in_range (new_lengths ls o) ops end.

(** *** Proofs *)
Definition reps (bs st : list (list Z)) : Prop := Forall2 rep bs st.

Lemma isbyte_iff s : Forall isbyte s <-> bytes s.
Proof. rewrite Forall_forall. unfold bytes, isbyte. split; intros H c I; specialize (H c I); lia. Qed.

Lemma rep_shows b s : rep b s -> shows b s.
Proof.
  intros R. split; [now apply string_length_ok|]. split.
  - intros i I. destruct (rep_sub b s i R I) as (c & E & G & _). unfold get_nth_char, znth. now rewrite E, G.
  - apply isbyte_iff, R.
Qed.

Lemma reps_get bs st k s : reps bs st -> zget st k = Some s -> exists b, zget bs k = Some b /\ rep b s.
Proof.
  intros H. revert k. induction H as [|b s0 bs st R F IH]; intros k G; [now rewrite zget_none in G by (change (@zlen (list Z) []) with 0; lia)|].
  rewrite zget_cons in *. destruct (k =? 0); [|now apply IH]. injection G as <-. now exists b.
Qed.

Lemma reps_len bs st : reps bs st -> zlen bs = zlen st.
Proof. induction 1; [reflexivity|]. rewrite !zlen_cons. lia. Qed.

Lemma reps_set bs st k b' s s' : reps bs st -> zget st k = Some s -> rep b' s' ->
  exists bs' st', update_raw bs k b' = Ret bs' /\ replaces st k s' st' /\ reps bs' st'.
Proof.
  intros H. revert k. induction H as [|b s0 bs st R F IH]; intros k G R'; [now rewrite zget_none in G by (change (@zlen (list Z) []) with 0; lia)|].
  pose proof (zget_range _ _ _ G) as I. pose proof (reps_len _ _ F) as LL.
  rewrite zlen_cons in I. rewrite zget_cons in G.
  destruct (Z.eqb_spec k 0) as [E0|N].
  - rewrite E0 in *. exists (b' :: bs), (s' :: st). split.
    + unfold update_raw, zset. cbn [Z.ltb Z.compare orb]. rewrite (proj2 (Z.leb_gt _ _)) by (rewrite zlen_cons; pose proof (zlen_nonneg bs); lia). reflexivity.
    + split; [|now constructor]. split; [reflexivity|]. split; [reflexivity|]. intros j J.
      rewrite !zget_cons. now rewrite (proj2 (Z.eqb_neq _ _)) by assumption.
  - destruct (IH (k - 1) G R') as (bs' & st' & E & (L & G' & O) & RR).
    exists (b :: bs'), (s0 :: st'). split; [|split].
    + unfold update_raw, zset in *.
      destruct (Z.ltb_spec k 0); [lia|]. rewrite (proj2 (Z.leb_gt _ _)) by (rewrite zlen_cons; lia).
      destruct (Z.ltb_spec (k - 1) 0); [lia|]. rewrite (proj2 (Z.leb_gt _ _)) in E by lia. cbn [orb] in *.
      replace (Z.to_nat k) with (S (Z.to_nat (k - 1))) by lia. cbn [upd]. congruence.
    + split; [rewrite !zlen_cons; lia|]. rewrite zget_cons, (proj2 (Z.eqb_neq _ _)) by assumption.
      split; [assumption|]. intros j J. rewrite !zget_cons. destruct (j =? 0) eqn:EJ; [reflexivity|]. apply O. lia.
    + now constructor.
Qed.

Lemma zget_znth (s : list Z) i : 0 <= i < zlen s -> zget s i = Some (znth 0 s i).
Proof. intros H. destruct (zget_some s i H) as [c E]. unfold znth. now rewrite E. Qed.

(** overwriting, at block level *)
Lemma rep_overwrite b s b' off p : rep b s -> Forall isbyte p -> 0 <= off -> off + zlen p <= zlen s -> zlen b' = zlen b ->
  (forall i, zget b' i = if (off <=? i) && (i <? off + zlen p) then zget p (i - off) else zget b i) ->
  exists s', overwrite s off p s' /\ rep b' s'.
Proof.
  intros R Fp Ho Hl L G. pose proof (rep_zlen _ _ R) as Lb.
  assert (zlen (text b' (zlen s)) = zlen s) as LT by (apply zlen_text; pose proof (zlen_nonneg s); lia).
  exists (text b' (zlen s)).
  assert (forall i, 0 <= i < zlen s -> zget (text b' (zlen s)) i =
    if (off <=? i) && (i <? off + zlen p) then zget p (i - off) else zget s i) as GT.
  { intros i I. rewrite zget_text by assumption. rewrite G.
    destruct ((off <=? i) && (i <? off + zlen p)); [reflexivity|]. now apply zget_rep. }
  split.
  - split; [assumption|]. intros i I. unfold znth. rewrite GT by assumption.
    destruct ((off <=? i) && (i <? off + zlen p)); reflexivity.
  - apply (rep_write b s); try assumption.
    + apply Forall_zget. intros i c E. pose proof (zget_range _ _ _ E) as I. rewrite LT in I.
      rewrite GT in E by assumption. destruct ((off <=? i) && (i <? off + zlen p)).
      * rewrite Forall_forall in Fp. eapply Fp, zget_In, E.
      * destruct R as (_ & F & _). rewrite Forall_forall in F. eapply F, zget_In, E.
    + intros i I. symmetry. now apply zget_text.
    + intros i I. rewrite G. assert ((off <=? i) && (i <? off + zlen p) = false) as -> by lia. reflexivity.
Qed.

Lemma fill_loop_ok n : forall b p c, 0 <= p -> p + Z.of_nat n <= zlen b ->
  exists b', fill_loop n b p c = Ret b' /\ zlen b' = zlen b /\
    forall i, zget b' i = if (p <=? i) && (i <? p + Z.of_nat n) then Some c else zget b i.
Proof.
  induction n as [|n IH]; intros b p c Hp Hl; cbn [fill_loop].
  - exists b. split; [reflexivity|]. split; [reflexivity|]. intros i. assert ((p <=? i) && (i <? p + Z.of_nat 0) = false) as -> by lia. reflexivity.
  - destruct (update_raw_ok b p c) as (b1 & -> & L1 & G1); [lia|]. cbn [bind].
    destruct (IH b1 (p + 1) c) as (b' & -> & L & G); [lia|lia|]. exists b'. split; [reflexivity|]. split; [lia|].
    intros i. rewrite G, G1. destruct (Z.eqb_spec i p).
    + subst. assert ((p + 1 <=? p) && (p <? p + 1 + Z.of_nat n) = false) as -> by lia.
      assert ((p <=? p) && (p <? p + Z.of_nat (S n)) = true) as -> by lia. reflexivity.
    + assert ((p + 1 <=? i) && (i <? p + 1 + Z.of_nat n) = ((p <=? i) && (i <? p + Z.of_nat (S n)))) as -> by lia.
      reflexivity.
Qed.

Lemma in_range_len st k n : zget (lengths st) k = Some n -> exists s, zget st k = Some s /\ zlen s = n.
Proof.
  unfold lengths, zget. destruct (k <? 0); [discriminate|]. rewrite nth_error_map.
  destruct (nth_error st (Z.to_nat k)) as [s|]; [|discriminate]. cbn. intros [= <-]. now exists s.
Qed.

Lemma int32_id n : 0 <= n < 2 ^ 31 -> int32 n = n.
Proof. intros. change (2 ^ 31) with 2147483648 in *. unfold int32. lia. Qed.

Lemma zlen_piece s o n : 0 <= o -> 0 <= n -> o + n <= zlen s -> zlen (piece s o n) = n.
Proof. intros. unfold piece, zlen in *. rewrite firstn_length, skipn_length. lia. Qed.
Lemma zget_piece s o n i : 0 <= o -> 0 <= n -> o + n <= zlen s -> 0 <= i < n -> zget (piece s o n) i = zget s (o + i).
Proof.
  intros Ho Hn L I.
  destruct (bcopy_ok s o s 0 n) as (r & E & Lr & G); try lia.
  specialize (G i). assert ((0 <=? i) && (i <? 0 + n) = true) as X by lia. rewrite X in G.
  replace (o + (i - 0)) with (o + i) in G by lia. rewrite <- G.
  unfold bcopy in E. destruct (_ || _) in E; [discriminate|]. injection E as <-.
  cbn [Z.to_nat firstn app]. rewrite zget_app. unfold piece. fold (piece s o n).
  rewrite zlen_piece by assumption. now rewrite (proj2 (Z.ltb_lt _ _)) by lia.
Qed.

Lemma piece_bytes s o n : Forall isbyte s -> Forall isbyte (piece s o n).
Proof.
  intros F. unfold piece. rewrite Forall_forall in *. intros c I. apply F.
  assert (forall (l : list Z) k x, In x (firstn k l) -> In x l) as H1.
  { intros l k. revert l. induction k as [|k IH]; intros [|y l] x J; cbn in *; try contradiction.
    destruct J; [now left|right; now apply IH]. }
  assert (forall (l : list Z) k x, In x (skipn k l) -> In x l) as H2.
  { intros l k. revert l. induction k as [|k IH]; intros [|y l] x J; cbn in *; try contradiction; auto. }
  now apply H1, H2 in I.
Qed.

Lemma step_ok junk bs st o : reps bs st -> in_range (lengths st) o ->
  exists bs' st', model_step junk bs o = Ret bs' /\ step st o st' /\ reps bs' st' /\ lengths st' = new_lengths (lengths st) o.
Proof.
  intros R H.
  assert (REPL : forall k s s' st', zget st k = Some s -> replaces st k s' st' -> zlen s' = zlen s -> lengths st' = lengths st).
  { intros k s s' st' G (L & G' & O) LS. apply list_ext. intros j.
    assert (MAP : forall l : list (list Z), zget (lengths l) j = option_map zlen (zget l j)).
    { intros l. unfold lengths, zget. destruct (j <? 0); [reflexivity|]. apply nth_error_map. }
    rewrite !MAP. destruct (Z.eq_dec j k) as [->|N]; [rewrite G, G'; cbn; now rewrite LS|now rewrite O]. }
  destruct o as [n|cs|k i c|k off len c|k1 o1 k2 o2 len]; cbn [in_range] in H; cbn [model_step new_lengths].
  - destruct (alloc_ok junk n) as (b & s & E & Rb & L); [exact H|]. exists (bs ++ [b]), (st ++ [s]).
    unfold create_string. rewrite E. cbn [bind]. split; [reflexivity|]. split; [now constructor|].
    split; [apply Forall2_app; [assumption|constructor; [assumption|constructor]]|]. unfold lengths. rewrite map_app. cbn. now rewrite L.
  - destruct H as [Hc Hl]. pose proof (zlen_nonneg cs) as P0.
    unfold copy_string. cbn zeta. rewrite int32_id by lia. change (2 ^ 31) with 2147483648 in Hl. rewrite u64_id by (unfold two64; lia).
    destruct (alloc_ok junk (zlen cs)) as (b & s & E & Rb & L); [unfold maxlen; lia|].
    rewrite E. cbn [bind]. pose proof (rep_zlen _ _ Rb) as Lb.
    destruct (bcopy_ok cs 0 b 0 (zlen cs)) as (b' & E' & L' & G'); try lia. rewrite E'. cbn [bind].
    exists (bs ++ [b']), (st ++ [cs]). split; [reflexivity|]. split; [constructor; [assumption|change (2 ^ 31) with 2147483648; lia]|].
    split; [|unfold lengths; now rewrite map_app].
    apply Forall2_app; [assumption|]. constructor; [|constructor].
    apply (rep_write b s); try assumption; try lia.
    + apply Forall_forall. intros c I. specialize (Hc c I). unfold isbyte. lia.
    + intros i I. rewrite G'. assert ((0 <=? i) && (i <? 0 + zlen cs) = true) as -> by lia. f_equal. lia.
    + intros i I. rewrite G'. assert ((0 <=? i) && (i <? 0 + zlen cs) = false) as -> by lia. reflexivity.
  - destruct H as (n & G & I & C). apply in_range_len in G as (s & Gs & <-).
    destruct (reps_get bs st k s R Gs) as (b & Gb & Rb). unfold nth_block, sub_raw. rewrite Gb. cbn [bind].
    pose proof (rep_zlen _ _ Rb) as Lb. unfold set_nth_char. rewrite Z.mod_small by lia.
    destruct (update_raw_ok b i c) as (b' & -> & L' & G'); [lia|]. cbn [bind].
    destruct (rep_overwrite b s b' i [c]) as (s' & O & R'); try assumption; try lia.
    + constructor; [unfold isbyte; lia|constructor].
    + change (zlen [c]) with 1. lia.
    + intros j. rewrite G'. change (zlen [c]) with 1. destruct (Z.eqb_spec j i).
      * subst. assert ((i <=? i) && (i <? i + 1) = true) as -> by lia. now rewrite Z.sub_diag.
      * assert ((i <=? j) && (j <? i + 1) = false) as -> by lia. reflexivity.
    + destruct (reps_set bs st k b' s s' R Gs R') as (bs' & st' & E & Rp & RR).
      exists bs', st'. split; [assumption|]. split; [now apply (s_set st k i c s s' st')|]. split; [assumption|].
      eapply REPL; [exact Gs|exact Rp|apply O].
  - destruct H as (n & G & H1 & H2 & H3 & C). apply in_range_len in G as (s & Gs & <-).
    destruct (reps_get bs st k s R Gs) as (b & Gb & Rb). unfold nth_block, sub_raw. rewrite Gb. cbn [bind].
    pose proof (rep_zlen _ _ Rb) as Lb. assert (zlen s <= maxlen) as M by apply Rb. unfold maxlen in M.
    unfold fill_string. rewrite u64_id by (unfold two64; lia). rewrite Z.mod_small by lia.
    destruct (fill_loop_ok (Z.to_nat len) b off c) as (b' & -> & L' & G'); [lia|lia|]. cbn [bind].
    destruct (rep_overwrite b s b' off (repeat c (Z.to_nat len))) as (s' & O & R'); try assumption; try lia.
    + apply Forall_forall. intros x ->%repeat_spec. unfold isbyte. lia.
    + rewrite zlen_repeat. lia.
    + intros j. rewrite G', zlen_repeat, zget_repeat.
      destruct ((off <=? j) && (j <? off + Z.of_nat (Z.to_nat len))) eqn:B; [|reflexivity].
      assert ((0 <=? j - off) && (j - off <? Z.of_nat (Z.to_nat len)) = true) as -> by lia. reflexivity.
    + destruct (reps_set bs st k b' s s' R Gs R') as (bs' & st' & E & Rp & RR).
      exists bs', st'. split; [assumption|]. split; [now apply (s_fill st k off len c s s' st')|]. split; [assumption|].
      eapply REPL; [exact Gs|exact Rp|apply O].
  - destruct H as (n1 & n2 & G1 & G2 & H1 & H2 & H3 & H4 & H5).
    apply in_range_len in G1 as (s1 & Gs1 & <-). apply in_range_len in G2 as (s2 & Gs2 & <-).
    destruct (reps_get bs st k1 s1 R Gs1) as (b1 & Gb1 & Rb1). destruct (reps_get bs st k2 s2 R Gs2) as (b2 & Gb2 & Rb2).
    unfold nth_block, sub_raw. rewrite Gb1, Gb2. cbn [bind].
    pose proof (rep_zlen _ _ Rb1) as Lb1. pose proof (rep_zlen _ _ Rb2) as Lb2.
    unfold blit_string. rewrite int32_id by lia.
    destruct (bcopy_ok b1 o1 b2 o2 len) as (b' & -> & L' & G'); try lia. cbn [bind].
    pose proof (zlen_piece s1 o1 len H1 (proj1 H3) H4) as LP.
    destruct (rep_overwrite b2 s2 b' o2 (piece s1 o1 len)) as (s' & O & R'); try assumption; try lia.
    + apply piece_bytes, Rb1.
    + intros j. rewrite G', LP. destruct ((o2 <=? j) && (j <? o2 + len)) eqn:B; [|reflexivity].
      rewrite zget_piece by lia. apply (zget_rep b1 s1); [assumption|lia].
    + destruct (reps_set bs st k2 b' s2 s' R Gs2 R') as (bs' & st' & E & Rp & RR).
      exists bs', st'. split; [assumption|]. split; [now apply (s_blit st k1 o1 k2 o2 len s1 s2 s' st')|]. split; [assumption|].
      eapply REPL; [exact Gs2|exact Rp|apply O].
Qed.

(** Every program that creates strings and writes into them within bounds runs without touching
    memory outside the blocks, and its blocks show exactly the byte sequences of the plain
    semantics, whatever the bytes (also NUL) and lengths, and whatever was in the memory before. *)
Theorem C07_representation_partial : forall junks ops, all_in_range [] ops ->
  exists bs st, model_run junks [] ops = Ret bs /\ steps [] ops st /\ Forall2 shows bs st.
Proof.
  intros junks ops H.
  assert (G : forall ops bs st, reps bs st -> all_in_range (lengths st) ops ->
    exists bs' st', model_run junks bs ops = Ret bs' /\ steps st ops st' /\ reps bs' st').
  { clear. induction ops as [|o ops IH]; intros bs st R A; cbn [model_run].
    - exists bs, st. split; [reflexivity|]. split; [constructor|assumption].
    - destruct A as [A1 A2]. destruct (step_ok (junks (length ops)) bs st o R A1) as (bs1 & st1 & -> & S & R1 & L).
      cbn [bind]. rewrite <- L in A2. destruct (IH bs1 st1 R1 A2) as (bs' & st' & E & S' & R').
      exists bs', st'. split; [assumption|]. split; [econstructor; eassumption|assumption]. }
  destruct (G ops [] []) as (bs & st & E & S & R); [constructor|exact H|].
  exists bs, st. split; [assumption|]. split; [assumption|].
  clear - R. induction R; constructor; [now apply rep_shows|assumption].
Qed.

(** *** comparison *)
(** lexicographic order of byte sequences, a prefix being smaller *)
Fixpoint lex (s t : list Z) : comparison :=
  match s, t with
  | [], [] => Eq
  | [], _ => Lt
  | _, [] => Gt
  | a :: s, b :: t => match a ?= b with Eq => lex s t | c => c end
  end.

(** [built b s]: the block is one that a program of the above kind has made *)
Definition built (b s : list Z) : Prop :=
  exists junks ops bs st k, all_in_range [] ops /\ model_run junks [] ops = Ret bs /\
    zget bs k = Some b /\ steps [] ops st /\ zget st k = Some s /\ Forall2 shows bs st.

Lemma shows_inj b s t : shows b s -> shows b t -> s = t.
Proof.
  intros (L1 & G1 & _) (L2 & G2 & _). rewrite L1 in L2. injection L2 as L2.
  apply list_ext. intros i. destruct (Z.lt_ge_cases i 0); [rewrite !zget_none by lia; reflexivity|].
  destruct (Z.lt_ge_cases i (zlen s)); [|rewrite !zget_none by lia; reflexivity].
  rewrite !zget_znth by lia. f_equal. specialize (G1 i). specialize (G2 i).
  rewrite G1 in G2 by lia. assert (0 <= i < zlen t) as X by lia. specialize (G2 X). congruence.
Qed.

Lemma built_rep b s : built b s -> rep b s.
Proof.
  intros (junks & ops & bs & st & k & A & E & Gb & S & Gs & F).
  assert (G : forall ops bs st, reps bs st -> all_in_range (lengths st) ops ->
    exists bs' st', model_run junks bs ops = Ret bs' /\ steps st ops st' /\ reps bs' st').
  { clear. induction ops as [|o ops IH]; intros bs st R A; cbn [model_run].
    - exists bs, st. split; [reflexivity|]. split; [constructor|assumption].
    - destruct A as [A1 A2]. destruct (step_ok (junks (length ops)) bs st o R A1) as (bs1 & st1 & -> & S & R1 & L).
      cbn [bind]. rewrite <- L in A2. destruct (IH bs1 st1 R1 A2) as (bs' & st' & E & S' & R').
      exists bs', st'. split; [assumption|]. split; [econstructor; eassumption|assumption]. }
  destruct (G ops [] []) as (bs' & st' & E' & S' & R'); [constructor|exact A|].
  rewrite E in E'. injection E' as <-.
  assert (exists s', zget st' k = Some s') as [s' Gs'].
  { apply zget_some. apply zget_range in Gb. rewrite <- (reps_len _ _ R'). assumption. }
  destruct (reps_get bs st' k s' R' Gs') as (b1 & Gb1 & Rb). rewrite Gb in Gb1. injection Gb1 as <-.
  replace s with s'; [assumption|].
  apply (shows_inj b); [now apply rep_shows|].
  clear - F Gb Gs. revert k Gb Gs. induction F as [|x y bs st X F IH]; intros k Gb Gs.
  - now rewrite zget_none in Gb by (change (@zlen (list Z) []) with 0; lia).
  - rewrite zget_cons in *. destruct (k =? 0); [congruence|]. now apply (IH (k - 1)).
Qed.

Lemma skip_zget (s : list Z) p c : zget s p = Some c -> skipn (Z.to_nat p) s = c :: skipn (Z.to_nat (p + 1)) s.
Proof.
  intros G. pose proof (zget_range _ _ _ G) as I. unfold zget in G. destruct (Z.ltb_spec p 0); [lia|].
  replace (Z.to_nat (p + 1)) with (S (Z.to_nat p)) by lia. revert G. generalize (Z.to_nat p). clear.
  intros n. revert s. induction n as [|n IH]; intros [|x s] G; cbn in *; try discriminate; [congruence|]. now apply IH.
Qed.

Lemma compare_loop_ok b1 s1 b2 s2 : rep b1 s1 -> rep b2 s2 -> forall n p, 0 <= p ->
  p + Z.of_nat n <= zlen s1 -> p + Z.of_nat n <= zlen s2 ->
  exists r, compare_loop n b1 b2 p = Ret r /\
   match r with
   | Some (x, y) => x <> y /\ isbyte x /\ isbyte y /\ lex (skipn (Z.to_nat p) s1) (skipn (Z.to_nat p) s2) = (x ?= y) /\
        exists q, zget s1 q = Some x /\ zget s2 q = Some y
   | None => firstn n (skipn (Z.to_nat p) s1) = firstn n (skipn (Z.to_nat p) s2) /\
             lex (skipn (Z.to_nat p) s1) (skipn (Z.to_nat p) s2) =
             lex (skipn (Z.to_nat (p + Z.of_nat n)) s1) (skipn (Z.to_nat (p + Z.of_nat n)) s2)
   end.
Proof.
  intros R1 R2. induction n as [|n IH]; intros p Hp L1 L2; cbn [compare_loop].
  - exists None. split; [reflexivity|]. split; [reflexivity|]. now replace (p + Z.of_nat 0) with p by lia.
  - destruct (rep_sub b1 s1 p R1) as (x & -> & Gx & Bx); [lia|]. destruct (rep_sub b2 s2 p R2) as (y & -> & Gy & By); [lia|].
    cbn [bind]. rewrite (skip_zget s1 p x Gx), (skip_zget s2 p y Gy). cbn [lex firstn].
    destruct (Z.eqb_spec x y) as [->|N]; cbn [negb].
    + destruct (IH (p + 1)) as (r & E & H); [lia|lia|lia|]. exists r. split; [assumption|]. rewrite Z.compare_refl.
      destruct r as [[x' y']|]; [assumption|]. destruct H as [F L]. split; [now rewrite F|].
      rewrite L. now replace (p + 1 + Z.of_nat n) with (p + Z.of_nat (S n)) by lia.
    + eexists. split; [reflexivity|]. cbn beta iota. split; [assumption|]. split; [assumption|]. split; [assumption|].
      split; [|now exists p]. destruct (x ?= y) eqn:C; try reflexivity. apply Z.compare_eq in C. contradiction.
Qed.

Lemma skipn_zlen (s : list Z) n : zlen s <= n -> skipn (Z.to_nat n) s = [].
Proof. intros. apply skipn_all2. unfold zlen in *. lia. Qed.
Lemma skipn_nonempty (s : list Z) n : 0 <= n < zlen s -> exists c r, skipn (Z.to_nat n) s = c :: r.
Proof. intros H. destruct (zget_some s n H) as [c E]. exists c, (skipn (Z.to_nat (n + 1)) s). now apply skip_zget. Qed.

Definition sign_of (c : comparison) : Z := match c with Lt => -1 | Eq => 0 | Gt => 1 end.

(** compare_strings: the sign of the result is the unsigned lexicographic order; 2 in absolute value
    tells that one string is a proper prefix of the other *)
Theorem C07_compare_strings : forall b1 s1 b2 s2, built b1 s1 -> built b2 s2 ->
  exists r, compare_strings b1 b2 = Ret r /\ Z.sgn r = sign_of (lex s1 s2) /\ -2 <= r <= 2.
Proof.
  intros b1 s1 b2 s2 R1%built_rep R2%built_rep. unfold compare_strings.
  rewrite (string_length_ok b1 s1 R1), (string_length_ok b2 s2 R2). cbn [bind].
  pose proof (zlen_nonneg s1). pose proof (zlen_nonneg s2).
  set (len := if zlen s1 <=? zlen s2 then zlen s1 else zlen s2).
  assert (len = Z.min (zlen s1) (zlen s2)) as HL by (unfold len; destruct (Z.leb_spec (zlen s1) (zlen s2)); lia).
  destruct (compare_loop_ok b1 s1 b2 s2 R1 R2 (Z.to_nat len) 0) as (r & -> & S); [lia|lia|lia|]. cbn [bind].
  cbn [Z.to_nat skipn] in S.
  destruct r as [[x y]|].
  - eexists. split; [reflexivity|]. destruct S as (N & _ & _ & -> & _). destruct (Z.ltb_spec x y).
    + split; [|lia]. rewrite (proj2 (Z.compare_lt_iff x y)) by assumption. reflexivity.
    + split; [|lia]. rewrite (proj2 (Z.compare_gt_iff x y)) by lia. reflexivity.
  - destruct S as [_ ->]. replace (0 + Z.of_nat (Z.to_nat len)) with len by lia. rewrite HL.
    eexists. split; [reflexivity|].
    destruct (Z.eqb_spec (zlen s1) (zlen s2)).
    + rewrite !skipn_zlen by lia. split; [reflexivity|lia].
    + destruct (Z.ltb_spec (zlen s1) (zlen s2)).
      * rewrite (skipn_zlen s1) by lia. destruct (skipn_nonempty s2 (Z.min (zlen s1) (zlen s2))) as (c & t & ->); [lia|].
        split; [reflexivity|lia].
      * rewrite (skipn_zlen s2) by lia. destruct (skipn_nonempty s1 (Z.min (zlen s1) (zlen s2))) as (c & t & ->); [lia|].
        split; [reflexivity|lia].
Qed.

Lemma compare_val_rep b1 s1 b2 s2 : rep b1 s1 -> rep b2 s2 ->
  exists r, compare_val_string b1 b2 = Ret r /\ Z.sgn r = sign_of (lex s1 s2) /\ - 2 ^ 58 < r < 2 ^ 58.
Proof.
  intros R1 R2. unfold compare_val_string.
  rewrite (string_length_ok b1 s1 R1), (string_length_ok b2 s2 R2). cbn [bind].
  pose proof (zlen_nonneg s1). pose proof (zlen_nonneg s2).
  assert (zlen s1 <= maxlen) as M1 by apply R1. assert (zlen s2 <= maxlen) as M2 by apply R2. unfold maxlen in *.
  set (len := if zlen s1 <=? zlen s2 then zlen s1 else zlen s2).
  assert (len = Z.min (zlen s1) (zlen s2)) as HL by (unfold len; destruct (Z.leb_spec (zlen s1) (zlen s2)); lia).
  destruct (compare_loop_ok b1 s1 b2 s2 R1 R2 (Z.to_nat len) 0) as (r & -> & S); [lia|lia|lia|]. cbn [bind].
  cbn [Z.to_nat skipn] in S.
  destruct r as [[x y]|].
  - eexists. split; [reflexivity|]. destruct S as (N & Bx & By & -> & _).
    match goal with H : isbyte x |- _ => unfold isbyte in H end. match goal with H : isbyte y |- _ => unfold isbyte in H end.
    change (2 ^ 58) with 288230376151711744. destruct (Z.compare_spec x y); cbn [sign_of]; lia.
  - destruct S as [_ ->]. replace (0 + Z.of_nat (Z.to_nat len)) with len by lia. rewrite HL.
    eexists. split; [reflexivity|]. change (2 ^ 58) with 288230376151711744. rewrite s64_id by (unfold in_long, two63; lia).
    destruct (Z.lt_trichotomy (zlen s1) (zlen s2)) as [L|[L|L]].
    + rewrite (skipn_zlen s1) by lia. destruct (skipn_nonempty s2 (Z.min (zlen s1) (zlen s2))) as (c & t & ->); [lia|].
      cbn [lex sign_of]. lia.
    + rewrite !skipn_zlen by lia. cbn [lex sign_of]. lia.
    + rewrite (skipn_zlen s2) by lia. destruct (skipn_nonempty s1 (Z.min (zlen s1) (zlen s2))) as (c & t & ->); [lia|].
      cbn [lex sign_of]. lia.
Qed.

(** the string case of the polymorphic comparison: same order *)
Theorem C07_compare_val : forall b1 s1 b2 s2, built b1 s1 -> built b2 s2 ->
  exists r, compare_val_string b1 b2 = Ret r /\ Z.sgn r = sign_of (lex s1 s2).
Proof.
  intros b1 s1 b2 s2 R1%built_rep R2%built_rep. destruct (compare_val_rep b1 s1 b2 s2 R1 R2) as (r & E & S & _). now exists r.
Qed.

Lemma lex_eq s : forall t, lex s t = Eq <-> s = t.
Proof.
  induction s as [|x s IH]; intros [|y t]; cbn [lex]; try (split; congruence).
  destruct (Z.compare_spec x y); [|split; [discriminate|intros [=]; lia]|split; [discriminate|intros [=]; lia]].
  subst. rewrite IH. split; congruence.
Qed.

(** lexicographic order is a total order that agrees with equality of the byte sequences *)
Theorem C07_lex_total : (forall s t, lex s t = Eq <-> s = t) /\ (forall s t, lex t s = CompOpp (lex s t)) /\
  (forall s t u, lex s t = Lt -> lex t u = Lt -> lex s u = Lt).
Proof.
  split; [exact lex_eq|]. split.
  - induction s as [|x s IH]; intros [|y t]; cbn [lex]; try reflexivity.
    rewrite (Z.compare_antisym x y). destruct (x ?= y); cbn [CompOpp]; auto.
  - induction s as [|x s IH]; intros [|y t] [|z u]; cbn [lex]; try congruence.
    destruct (Z.compare_spec x y); try discriminate; destruct (Z.compare_spec y z); try discriminate; intros A B; subst.
    + rewrite Z.compare_refl. eapply IH; eassumption.
    + now rewrite (proj2 (Z.compare_lt_iff _ _)).
    + now rewrite (proj2 (Z.compare_lt_iff _ _)).
    + now rewrite (proj2 (Z.compare_lt_iff x z)) by lia.
Qed.

Lemma equal_string_rep b1 s1 b2 s2 : rep b1 s1 -> rep b2 s2 -> zlen s1 < 2 ^ 31 ->
  exists r, sml_equal_string b1 b2 = Ret r /\ (r = true <-> s1 = s2).
Proof.
  intros R1 R2 H. unfold sml_equal_string.
  rewrite (string_length_ok b1 s1 R1), (string_length_ok b2 s2 R2). cbn [bind].
  pose proof (zlen_nonneg s1). rewrite int32_id by lia. change (2 ^ 31) with 2147483648 in *.
  rewrite u64_id by (unfold two64; lia).
  destruct (Z.eqb_spec (zlen s1) (zlen s2)) as [E|N]; cbn [negb].
  - destruct (compare_loop_ok b1 s1 b2 s2 R1 R2 (Z.to_nat (zlen s1)) 0) as (r & -> & S); [lia|lia|lia|].
    cbn [bind]. eexists. split; [reflexivity|]. destruct r as [[x y]|].
    + split; [discriminate|]. intros ->. destruct S as (N & _ & _ & _ & q & Gx & Gy). congruence.
    + split; [|reflexivity]. intros _. destruct S as [F _]. cbn [Z.to_nat skipn] in F.
      rewrite !firstn_all2 in F by (unfold zlen in *; lia). assumption.
  - eexists. split; [reflexivity|]. split; [discriminate|]. intros ->. contradiction.
Qed.

(** Equality of strings (=).  Full statement:
      forall b1 s1 b2 s2, built b1 s1 -> built b2 s2 ->
        exists r, sml_equal_string b1 b2 = Ret r /\ (r = true <-> s1 = s2).
    It holds when the first string is shorter than 2^31. *)
Theorem C07_equal_partial : forall b1 s1 b2 s2, built b1 s1 -> built b2 s2 -> zlen s1 < 2 ^ 31 ->
  exists r, sml_equal_string b1 b2 = Ret r /\ (r = true <-> s1 = s2).
Proof. intros b1 s1 b2 s2 R1%built_rep R2%built_rep H. now apply equal_string_rep. Qed.

(** It is false for longer strings, whose length is truncated to an int: a string of 2^32 characters
    equals the empty string, *)
Theorem C07_equal_refuted : exists b1 s1 b2 s2, built b1 s1 /\ built b2 s2 /\ s1 <> s2 /\
  sml_equal_string b1 b2 = Ret true.
Proof.
  set (N := 4294967296). assert (N = 4294967296) as HN by reflexivity. clearbody N.
  assert (all_in_range [] [Create N; Create 0]) as A.
  { cbn [all_in_range in_range]. unfold fits. repeat split; lia. }
  destruct (C07_representation_partial (fun _ _ => 0) _ A) as (bs & st & E & S & F).
  inversion S as [|? ? st1 ? ? S1 S']; subst. inversion S' as [|? ? st2 ? ? S2 S'']; subst. inversion S''; subst.
  inversion S1 as [? ? s1 _ L1| | | |]; subst. inversion S2 as [? ? s2 _ L2| | | |]; subst.
  cbn [app] in *. inversion F as [|b1 ? bs1 ? F1 F']; subst. inversion F' as [|b2 ? bs2 ? F2 F'']; subst.
  inversion F''; subst.
  assert (B : forall k b s, zget [b1; b2] k = Some b -> zget [s1; s2] k = Some s -> built b s).
  { intros k b s G1 G2. exists (fun _ _ => 0), [Create (zlen s1); Create 0], [b1; b2], [s1; s2], k.
    split; [rewrite L1; exact A|]. split; [rewrite L1; exact E|]. split; [assumption|].
    split; [rewrite L1; exact S|]. split; [assumption|]. assumption. }
  exists b1, s1, b2, s2. split; [now apply (B 0)|]. split; [now apply (B 1)|]. split.
  - intros ->. lia.
  - destruct F1 as (Len1 & _). destruct F2 as (Len2 & _). unfold sml_equal_string. rewrite Len1, Len2. cbn [bind].
    rewrite L1, L2. reflexivity.
Qed.

(** and no string of 2^31 characters (up to 2^32) equals a copy of itself. *)
Theorem C07_equal_copy_refuted : forall b1 s1 b2 s2, built b1 s1 -> built b2 s2 -> 2 ^ 31 <= zlen s1 < 2 ^ 32 ->
  sml_equal_string b1 b2 = Ret false.
Proof.
  intros b1 s1 b2 s2 R1%built_rep R2%built_rep H. unfold sml_equal_string.
  rewrite (string_length_ok b1 s1 R1), (string_length_ok b2 s2 R2). cbn [bind].
  change (2 ^ 31) with 2147483648 in *. change (2 ^ 32) with 4294967296 in *.
  assert (zlen s2 <= maxlen) as M2 by apply R2. unfold maxlen in M2.
  assert (u64 (int32 (zlen s1)) = zlen s1 - 4294967296 + two64) as ->.
  { unfold int32, u64, two64. lia. }
  destruct (Z.eqb_spec (zlen s1 - 4294967296 + two64) (zlen s2)); [unfold two64 in *; lia|reflexivity].
Qed.

(** Concatenation (the primitive behind ^) *)
Theorem C07_concat : forall junk b1 s1 b2 s2, built b1 s1 -> built b2 s2 ->
  (fits (zlen s1 + zlen s2) -> exists b, sml_concat junk b1 b2 = Ret b /\ shows b (s1 ++ s2)) /\
  (~ fits (zlen s1 + zlen s2) -> sml_concat junk b1 b2 = Raise Size).
Proof.
  intros junk b1 s1 b2 s2 R1%built_rep R2%built_rep. unfold sml_concat.
  rewrite (string_length_ok b1 s1 R1). cbn [bind].
  pose proof (zlen_nonneg s1). pose proof (zlen_nonneg s2).
  assert (zlen s1 <= maxlen) as M1 by apply R1. assert (zlen s2 <= maxlen) as M2 by apply R2.
  unfold fits, maxlen in *.
  assert (NIL : forall s : list Z, zlen s = 0 -> s = []) by (intros [|? s] E; [reflexivity|rewrite zlen_cons in E; pose proof (zlen_nonneg s); lia]).
  destruct (Z.eqb_spec (zlen s1) 0) as [E1|N1].
  { split; [|lia]. intros _. exists b2. split; [reflexivity|]. rewrite (NIL s1 E1). now apply rep_shows. }
  rewrite (string_length_ok b2 s2 R2). cbn [bind].
  destruct (Z.eqb_spec (zlen s2) 0) as [E2|N2].
  { split; [|lia]. intros _. exists b1. split; [reflexivity|]. rewrite (NIL s2 E2), app_nil_r. now apply rep_shows. }
  rewrite (u64_id (zlen s1 + zlen s2)) by (unfold two64; lia). rewrite u64_id by (unfold two64; lia).
  split; intros HF.
  - destruct ((zlen s1 + zlen s2 + 8) / 8 >? 18014398509481983) eqn:E; [lia|].
    destruct (alloc_ok junk (zlen s1 + zlen s2)) as (b & s & -> & Rb & L); [unfold maxlen; lia|]. cbn [bind].
    pose proof (rep_zlen _ _ Rb) as Lb. pose proof (rep_zlen _ _ R1) as Lb1. pose proof (rep_zlen _ _ R2) as Lb2.
    destruct (bcopy_ok b1 0 b 0 (zlen s1)) as (c & -> & Lc & Gc); try lia. cbn [bind].
    destruct (bcopy_ok b2 0 c (zlen s1) (zlen s2)) as (d & -> & Ld & Gd); try lia.
    exists d. split; [reflexivity|]. apply rep_shows. apply (rep_write b s); try assumption; try lia.
    + rewrite zlen_app. lia.
    + apply Forall_app. split; [apply R1|apply R2].
    + intros i I. rewrite zget_app, Gd, Gc. destruct (Z.ltb_spec i (zlen s1)).
      * assert ((zlen s1 <=? i) && (i <? zlen s1 + zlen s2) = false) as -> by lia.
        assert ((0 <=? i) && (i <? 0 + zlen s1) = true) as -> by lia.
        replace (0 + (i - 0)) with i by lia. now apply zget_rep.
      * assert ((zlen s1 <=? i) && (i <? zlen s1 + zlen s2) = true) as -> by lia.
        replace (0 + (i - zlen s1)) with (i - zlen s1) by lia. apply zget_rep; [assumption|lia].
    + intros i I. rewrite Gd, Gc.
      assert ((zlen s1 <=? i) && (i <? zlen s1 + zlen s2) = false) as -> by lia.
      assert ((0 <=? i) && (i <? 0 + zlen s1) = false) as -> by lia. reflexivity.
  - destruct ((zlen s1 + zlen s2 + 8) / 8 >? 18014398509481983) eqn:E; [reflexivity|lia].
Qed.

(** *** Examples *)
Example representation_example :
  let ops := [Create 9; Fill 0 0 9 0; SetChar 0 8 255; CopyC [65; 66; 67]; Blit 1 1 0 3 2] in
  all_in_range [] ops /\
  exists b0 b1, model_run (fun _ k => Z.of_nat k) [] ops = Ret [b0; b1] /\
    b0 = [0; 0; 0; 66; 67; 0; 0; 0; 255; 0; 0; 0; 0; 0; 0; 6] /\ b1 = [65; 66; 67; 0; 0; 0; 0; 4] /\
    string_length b0 = Ret 9 /\ compare_strings b0 b1 = Ret (-1).
Proof.
  split.
  - cbn. unfold fits. repeat split; try lia; try (intros c H; lia).
    + exists 9. repeat split; lia.
    + exists 9. repeat split; lia.
    + exists 3, 9. repeat split; lia.
  - exists [0; 0; 0; 66; 67; 0; 0; 0; 255; 0; 0; 0; 0; 0; 0; 6], [65; 66; 67; 0; 0; 0; 0; 4].
    split; [vm_compute; reflexivity|]. split; [reflexivity|]. split; [reflexivity|].
    split; vm_compute; reflexivity.
Qed.

Print Assumptions C07_representation_partial.
Print Assumptions C07_compare_strings.
Print Assumptions C07_compare_val.
Print Assumptions C07_lex_total.
Print Assumptions C07_equal_partial.
Print Assumptions C07_equal_refuted.
Print Assumptions C07_equal_copy_refuted.
Print Assumptions C07_concat.
