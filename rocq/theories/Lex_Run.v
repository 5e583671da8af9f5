(** Proofs about mosmllex, part 4: the generated decision code and its runs. *)
From Verif Require Import Base Lex_Model Lex_Spec Lex_Proofs Lex_Encode Lex_Dfa.

(** ** Sort.sml: the same elements *)
Lemma in_sort_merge {A} (o : A -> A -> bool) x xs : forall ys,
  In x (sort_merge o xs ys) <-> In x xs \/ In x ys.
Proof.
  induction xs as [|a xs IH1]; intros ys.
  - destruct ys; cbn; tauto.
  - induction ys as [|b ys IH2].
    + cbn. tauto.
    + change (sort_merge o (a :: xs) (b :: ys))
        with (if o a b then a :: sort_merge o xs (b :: ys) else b :: sort_merge o (a :: xs) ys).
      destruct (o a b); cbn [In] in *; rewrite ?IH1, ?IH2; cbn [In]; tauto.
Qed.

Definition inl {A} (x : A) (l : list (list A)) : Prop := exists xs, In xs l /\ In x xs.

Lemma inl_cons {A} (x : A) xs l : inl x (xs :: l) <-> In x xs \/ inl x l.
Proof.
  unfold inl. cbn. split.
  - intros (ys & [<-|H1] & H2); [auto|]. right. eauto.
  - intros [H|(ys & H1 & H2)]; eauto.
Qed.
Lemma inl_nil {A} (x : A) : inl x [] <-> False.
Proof. unfold inl. split; [intros (? & [] & _)|tauto]. Qed.

Lemma list_ind2 {A} (P : list A -> Prop) :
  P [] -> (forall a, P [a]) -> (forall a b l, P l -> P (a :: b :: l)) -> forall l, P l.
Proof.
  intros H0 H1 H2 l. assert (H : P l /\ forall a, P (a :: l)).
  { induction l as [|b l [IH1 IH2]]; [split; auto|]. split; [apply IH2|]. intros a. apply H2. exact IH1. }
  apply H.
Qed.

Lemma in_initList {A} (o : A -> A -> bool) (x : A) l : inl x (initList o l) <-> In x l.
Proof.
  induction l as [|a|a b l IH] using list_ind2; cbn [initList].
  - rewrite inl_nil. cbn. tauto.
  - rewrite inl_cons, inl_nil. cbn. tauto.
  - rewrite inl_cons, IH. destruct (o a b); cbn; tauto.
Qed.

Lemma in_merge2 {A} (o : A -> A -> bool) (x : A) l : inl x (merge2 o l) <-> inl x l.
Proof.
  induction l as [|a|a b l IH] using list_ind2; cbn [merge2]; [tauto|tauto|].
  rewrite !inl_cons, in_sort_merge, IH. tauto.
Qed.
Lemma merge2_length {A} (o : A -> A -> bool) l : (length (merge2 o l) <= length l)%nat /\
  (2 <= length l -> length (merge2 o l) < length l)%nat.
Proof.
  induction l as [|a|a b l IH] using list_ind2; cbn [merge2 length] in *; lia.
Qed.

Lemma mergeAll_spec {A} (o : A -> A -> bool) fuel : forall l, (length l < fuel)%nat ->
  exists r, mergeAll o fuel l = Ret r /\ forall x, In x r <-> inl x l.
Proof.
  induction fuel as [|fuel IH]; intros l H; [lia|]. cbn [mergeAll].
  destruct l as [|a [|b l]].
  - exists []. split; [auto|]. intros x. rewrite inl_nil. cbn. tauto.
  - exists a. split; [auto|]. intros x. rewrite inl_cons, inl_nil. tauto.
  - destruct (merge2_length o (a :: b :: l)) as [_ L].
    destruct (IH (merge2 o (a :: b :: l))) as (r & E & R); [cbn [length] in *; lia|].
    exists r. split; [exact E|]. intros x. rewrite R, in_merge2. tauto.
Qed.

Lemma sort_spec {A} (o : A -> A -> bool) l : exists r, sort o l = Ret r /\ forall x, In x r <-> In x l.
Proof.
  unfold sort. destruct (mergeAll_spec o (S (length (initList o l))) (initList o l)) as (r & E & R); [lia|].
  exists r. split; [exact E|]. intros x. rewrite R. apply in_initList.
Qed.

(** ** enumerate_vect *)
Lemma move_eqb_spec a b : move_eqb a b = true <-> a = b.
Proof.
  destruct a, b; cbn; try (split; congruence). rewrite Z.eqb_eq. split; congruence.
Qed.

Definition holds (env : list (automata_move * list Z)) (k : automata_move) (q : Z) : Prop :=
  exists pl, In (k, pl) env /\ In q pl.

Lemma env_add_some k pos env : forall env', env_add k pos env = Some env' ->
  forall k' q, holds env' k' q <-> holds env k' q \/ (k' = k /\ q = pos).
Proof.
  induction env as [|[a pl] env IH]; cbn [env_add]; intros env' H; [discriminate|].
  intros k' q. destruct (move_eqb k a) eqn:E.
  - apply move_eqb_spec in E as ->. injection H as <-. unfold holds. cbn [In]. split.
    + intros (l & [[= <- <-]|H1] & H2).
      * destruct H2 as [<-|H2]; [auto|]. left. exists pl. auto.
      * left. exists l. auto.
    + intros [(l & [[= <- <-]|H1] & H2)|[-> ->]].
      * exists (pos :: pl). split; [auto|now right].
      * exists l. auto.
      * exists (pos :: pl). split; [auto|now left].
  - destruct (env_add k pos env) as [r|] eqn:E1; [|discriminate]. injection H as <-.
    specialize (IH _ eq_refl k' q). unfold holds in *. cbn [In]. split.
    + intros (l & [H1|H1] & H2); [left; exists l; auto|].
      destruct IH as [IH _]. destruct IH as [(l' & H3 & H4)|H3]; [exists l; auto| |auto]. left. exists l'. auto.
    + intros [(l & [H1|H1] & H2)|H3].
      * exists l. auto.
      * destruct IH as [_ IH]. destruct IH as (l' & H3 & H4); [left; exists l; auto|]. exists l'. auto.
      * destruct IH as [_ IH]. destruct IH as (l' & H4 & H5); [auto|]. exists l'. auto.
Qed.

Lemma enum_spec v : forall pos env k q, holds (enum v pos env) k q <->
  holds env k q \/ (pos <= q /\ nth_error v (Z.to_nat (q - pos)) = Some k).
Proof.
  induction v as [|mv v IH]; intros pos env k q; cbn [enum].
  - split; [auto|]. intros [H|[_ H]]; [auto|]. now destruct (Z.to_nat (q - pos)).
  - assert (G : forall env', (holds env' k q <-> holds env k q \/ (k = mv /\ q = pos)) ->
      (holds (enum v (pos + 1) env') k q <->
       holds env k q \/ (pos <= q /\ nth_error (mv :: v) (Z.to_nat (q - pos)) = Some k))).
    { intros env' He. rewrite IH, He. destruct (Z.eq_dec q pos) as [->|N].
      - rewrite Z.sub_diag. cbn. intuition (try lia; try congruence).
      - split.
        + intros [[H|[_ H]]|[H1 H2]]; [auto|congruence|]. right. split; [lia|].
          replace (Z.to_nat (q - pos)) with (S (Z.to_nat (q - (pos + 1)))) by lia. exact H2.
        + intros [H|[H1 H2]]; [auto|]. right. split; [lia|].
          replace (Z.to_nat (q - pos)) with (S (Z.to_nat (q - (pos + 1)))) in H2 by lia. exact H2. }
    destruct (env_add mv pos env) as [env'|] eqn:E.
    + apply G. exact (env_add_some _ _ _ _ E k q).
    + apply G. unfold holds. cbn [In]. split.
      * intros (l & [[= <- <-]|H1] & H2); [|left; eauto]. destruct H2 as [<-|[]]. auto.
      * intros [(l & H1 & H2)|[-> ->]]; [exists l; auto|]. exists [pos]. split; [auto|now left].
Qed.

Lemma enumerate_vect_spec v : exists r, enumerate_vect v = Ret r /\
  forall k q, holds r k q <-> 0 <= q /\ nth_error v (Z.to_nat q) = Some k.
Proof.
  unfold enumerate_vect.
  destruct (sort_spec (fun e1 e2 : automata_move * list Z =>
    Z.of_nat (length (snd e2)) <=? Z.of_nat (length (snd e1))) (enum v 0 [])) as (r & E & R).
  exists r. split; [exact E|]. intros k q.
  assert (H : holds r k q <-> holds (enum v 0 []) k q).
  { unfold holds. split; intros (pl & H1 & H2); exists pl; split; auto; now apply R. }
  rewrite H, enum_spec, Z.sub_0_r. split; [|auto].
  intros [(pl & [] & _)|H1]; auto.
Qed.

(** ** Intervals *)
Definition inside_i (i : Z * Z) (q : Z) : Prop := fst i <= q <= snd i.

Lemma mkIntervals_gen cs : forall acc,
  (forall i, In i acc -> fst i <= snd i) ->
  (forall i, In i (foldL addToInterv acc cs) -> fst i <= snd i) /\
  forall q, (exists i, In i (foldL addToInterv acc cs) /\ inside_i i q) <->
            (exists i, In i acc /\ inside_i i q) \/ In q cs.
Proof.
  induction cs as [|c cs IH]; cbn [foldL]; intros acc V.
  - split; [exact V|]. intros q. cbn. tauto.
  - assert (V1 : forall i, In i (addToInterv c acc) -> fst i <= snd i).
    { destruct acc as [|[c1 c2] rest]; cbn [addToInterv].
      - intros i [<-|[]]. cbn. lia.
      - specialize (V (c1, c2) (or_introl eq_refl)) as V2. cbn in V2.
        destruct (Z.eqb_spec (c + 1) c1); cbn [In]; intros i [<-|Hi]; cbn; try lia; apply V; cbn; auto. }
    assert (T1 : forall q, (exists i, In i (addToInterv c acc) /\ inside_i i q) <->
                           (exists i, In i acc /\ inside_i i q) \/ q = c).
    { intros q. destruct acc as [|[c1 c2] rest]; cbn [addToInterv].
      - unfold inside_i. split.
        + intros (i & [<-|[]] & H). cbn in H. right. lia.
        + intros [(i & [] & _)| ->]. exists (c, c). cbn. split; [auto|lia].
      - specialize (V (c1, c2) (or_introl eq_refl)) as V2. cbn in V2. unfold inside_i.
        destruct (Z.eqb_spec (c + 1) c1) as [E|E].
        + split.
          * intros (i & [<-|Hi] & H); [|left; exists i; split; [now right|auto]]. cbn in H.
            destruct (Z.eq_dec q c); [auto|]. left. exists (c1, c2). cbn. split; [auto|lia].
          * intros [(i & [<-|Hi] & H)| ->].
            -- exists (c, c2). cbn in *. split; [auto|lia].
            -- exists i. split; [now right|auto].
            -- exists (c, c2). cbn. split; [auto|lia].
        + split.
          * intros (i & [<-|Hi] & H); [cbn in H; right; lia|]. left. exists i. auto.
          * intros [(i & Hi & H)| ->]; [exists i; split; [now right|auto]|]. exists (c, c). cbn. split; [auto|lia]. }
    destruct (IH _ V1) as [A B]. split; [exact A|]. intros q. rewrite B, T1. cbn [In]. intuition congruence.
Qed.

Lemma mkIntervals_spec cs q : (exists i, In i (mkIntervals cs) /\ inside_i i q) <-> In q cs.
Proof.
  unfold mkIntervals. destruct (mkIntervals_gen cs []) as [_ H]; [intros i []|]. rewrite H.
  split; [intros [(i & [] & _)|]; auto|auto].
Qed.

(** the move [d] is recorded for the character [q] *)
Definition cov (acc : trans_acc) (d : automata_move) (q : Z) : Prop :=
  (exists i, In (d, i) (fst acc) /\ inside_i i q) \/ In (d, q) (snd acc).

Lemma addInterv_n_spec n : forall dest c1 c2 acc, n = Z.to_nat (c2 - c1 + 1) ->
  forall d q, cov (addInterv_n n dest c1 c2 acc) d q <-> cov acc d q \/ (d = dest /\ c1 <= q <= c2).
Proof.
  induction n as [|n IH]; intros dest c1 c2 [iv sg] Hn d q; cbn [addInterv_n].
  - destruct (Z.gtb_spec c1 c2); [|lia]. intuition lia.
  - destruct (Z.gtb_spec c1 c2); [lia|].
    destruct (Z.geb_spec (c2 - c1) 5).
    + unfold cov, inside_i. cbn [fst snd In]. split.
      * intros [(i & [[= <- <-]|Hi] & R)|Hs]; [right; cbn in R; auto|left; left; eauto|auto].
      * intros [[(i & Hi & R)|Hs]|[-> R]]; [left; eauto|auto|]. left. exists (c1, c2). cbn. auto.
    + rewrite IH by lia. unfold cov. cbn [fst snd In]. split.
      * intros [[H1|[[= <- <-]|H1]]|[H1 H2]]; [auto|right; split; [auto|lia]|auto|right; split; [auto|lia]].
      * intros [[H1|H1]|[H1 H2]]; [auto|auto|].
        destruct (Z.eq_dec q c1) as [->|N]; [left; right; left; congruence|]. right. split; [auto|lia].
Qed.

Lemma foldR_addInterv dest l acc : forall d q,
  cov (foldR (addInterv dest) acc l) d q <-> cov acc d q \/ (d = dest /\ exists i, In i l /\ inside_i i q).
Proof.
  induction l as [|i l IH]; cbn [foldR]; intros d q.
  - split; [auto|]. intros [H|[_ (i & [] & _)]]; auto.
  - unfold addInterv at 1. rewrite addInterv_n_spec by reflexivity. rewrite IH. split.
    + intros [[H|(-> & i' & H1 & H2)]|[-> H]]; [auto| |]; right; split; auto; [exists i'|exists i]; cbn; auto.
    + intros [H|(-> & i' & [<-|H1] & H2)]; [auto|auto|]. left. right. split; [auto|eauto].
Qed.

Lemma unzipInterv_spec trans d q : cov (unzipInterv trans) d q <-> holds trans d q.
Proof.
  unfold unzipInterv. induction trans as [|[k pl] trans IH]; cbn [foldR fst snd].
  - unfold cov, holds. cbn. split; [intros [(i & [] & _)|[]]|intros (pl & [] & _)].
  - rewrite foldR_addInterv, IH, mkIntervals_spec. unfold holds. cbn [In]. split.
    + intros [(l & H1 & H2)|[-> H]]; [exists l; auto|]. exists pl. auto.
    + intros (l & [[= <- <-]|H1] & H2); [auto|]. left. eauto.
Qed.

(** ** The decision code *)
Lemma run_code_i ti k c : 
  (exists d i, In (d, i) ti /\ inside_i i c /\ run_code (output_all_trans_i ti k) c = d) \/
  ((forall d i, In (d, i) ti -> ~ inside_i i c) /\ run_code (output_all_trans_i ti k) c = run_code k c).
Proof.
  induction ti as [|[d [c1 c2]] ti IH].
  - right. split; [auto|reflexivity].
  - unfold output_all_trans_i in *. cbn [foldR fst snd run_code].
    destruct ((c >=? c1) && (c <=? c2)) eqn:E.
    + left. exists d, (c1, c2). split; [now left|]. split; [unfold inside_i; cbn; lia|reflexivity].
    + destruct IH as [(d' & i & H1 & H2 & H3)|[H1 H2]].
      * left. exists d', i. split; [now right|auto].
      * right. split; [|exact H2]. intros d' i [[= <- <-]|H3]; [unfold inside_i; cbn; lia|eauto].
Qed.

Lemma case_code_spec c ts default :
  (exists d, In (d, c) ts /\ case_code c ts default = d) \/
  ((forall d, ~ In (d, c) ts) /\ case_code c ts default = default).
Proof.
  induction ts as [|[d k] ts IH]; cbn [case_code].
  - right. auto.
  - destruct (Z.eqb_spec c k) as [->|N].
    + left. exists d. split; [now left|reflexivity].
    + destruct IH as [(d' & H1 & H2)|[H1 H2]].
      * left. exists d'. split; [now right|auto].
      * right. split; [|auto]. intros d' [[= _ <-]|H3]; [congruence|]. now apply (H1 d').
Qed.

(** the code makes the move of the table *)
Lemma output_all_trans_spec moves : moves <> [] ->
  exists k, output_all_trans moves = Ret k /\
  forall c mv, asub moves c = Ret mv -> run_code k c = mv.
Proof.
  intros NE. unfold output_all_trans. destruct (enumerate_vect_spec moves) as (e & -> & HE). cbn [bind].
  destruct e as [|[default pl0] rest].
  { exfalso. destruct moves as [|m0 moves]; [congruence|].
    destruct (HE m0 0) as [_ H]. destruct H as (pl & [] & _). split; [lia|reflexivity]. }
  assert (HR : forall c mv, asub moves c = Ret mv -> forall d,
    ((exists d', cov (unzipInterv rest) d' c /\ d = d') \/ ((forall d', ~ cov (unzipInterv rest) d' c) /\ d = default)) ->
    d = mv).
  { intros c mv Ec d Hd. apply asub_some in Ec as [R Ec].
    assert (HM : holds ((default, pl0) :: rest) mv c) by (apply HE; split; [lia|auto]).
    destruct Hd as [(d' & H1 & ->)|[H1 ->]].
    - apply unzipInterv_spec in H1.
      assert (H2 : holds ((default, pl0) :: rest) d' c) by (destruct H1 as (pl & H3 & H4); exists pl; split; [now right|auto]).
      apply HE in H2 as [_ H2]. congruence.
    - destruct HM as (pl & [[= <- <-]|H3] & H4); [auto|].
      destruct (H1 mv). apply unzipInterv_spec. exists pl. auto. }
  destruct (unzipInterv rest) as [ti ts] eqn:EU.
  assert (GC : forall c, (exists d', cov (ti, ts) d' c /\ run_code (output_all_trans_i ti (CCase ts default)) c = d') \/
     ((forall d', ~ cov (ti, ts) d' c) /\ run_code (output_all_trans_i ti (CCase ts default)) c = default)).
  { intros c. destruct (run_code_i ti (CCase ts default) c) as [(d & i & H1 & H2 & H3)|[H1 H2]].
    - left. exists d. split; [left; exists i; auto|auto].
    - rewrite H2. cbn [run_code]. destruct (case_code_spec c ts default) as [(d & H3 & H4)|[H3 H4]].
      + left. exists d. split; [right; auto|auto].
      + right. split; [|auto]. intros d' [(i & H5 & H6)|H5]; [now apply (H1 d' i)|now apply (H3 d')]. }
  destruct ti as [|i0 ti0].
  - exists (CCase ts default). split; [reflexivity|]. intros c mv Ec. apply (HR c mv Ec). exact (GC c).
  - set (ti := i0 :: ti0) in *. clearbody ti. destruct ts as [|s0 ts0].
    + exists (output_all_trans_i ti (CMove default)). split; [reflexivity|]. intros c mv Ec.
      apply (HR c mv Ec). destruct (run_code_i ti (CMove default) c) as [(d & i & H1 & H2 & H3)|[H1 H2]].
      * left. exists d. split; [left; exists i; auto|auto].
      * right. split; [|auto]. intros d' [(i & H5 & H6)|[]]. now apply (H1 d' i).
    + exists (output_all_trans_i ti (CCase (s0 :: ts0) default)). split; [reflexivity|].
      intros c mv Ec. apply (HR c mv Ec). exact (GC c).
Qed.

(** ** Sets of positions and words *)

(** [st] is the set of positions that may come after a position word that spells [w] *)
Definition reads (T : list (list Z)) (r : regexp) (w : list Z) (st : list transition) : Prop :=
  forall x, In x st <-> exists u, Forall2 (spells T) u w /\ pre r u x.

Lemma reads_nil T r : reads T r [] (firstpos r).
Proof.
  intros x. rewrite <- pre_nil. split.
  - intros H. exists []. split; [constructor|exact H].
  - intros (u & F & H). inversion F; subst. exact H.
Qed.

Lemma reads_step chars follow regs r w c st t ps n :
  (forall q x, tin follow q x <-> exists e, In e regs /\ fol (snd e) (OnChars q) x) ->
  ForallOrdPairs disjoint_poss regs -> In r regs -> linear (snd r) ->
  reads chars (snd r) w st -> split_trans_set st = (n, ps) ->
  (forall x, In x t <-> exists p, In p ps /\ step_in chars follow p c x) ->
  reads chars (snd r) (w ++ [c]) t.
Proof.
  intros FT D HR L Rd E HT x. destruct (split_spec _ _ _ E) as (A & _). rewrite HT. split.
  - intros (p & Hp & cl & H1 & H2 & H3). apply A, Rd in Hp as (u & F & P).
    exists (u ++ [OnChars p]). split.
    + apply Forall2_app; [auto|]. constructor; [exists p, cl; auto|constructor].
    + apply pre_snoc; [auto|]. split; [auto|]. apply FT in H3 as (e & He & Hf).
      destruct (fol_poss _ _ _ Hf) as [P1 _].
      assert (P2 : In (OnChars p) (poss (snd r))).
      { destruct P as [v P]. eapply lang_poss; [exact P|apply in_elt]. }
      destruct (ForallOrdPairs_In D e r He HR) as [->|[Hd|Hd]]; [auto| |]; exfalso; eapply Hd; eauto.
  - intros (u & F & P). apply Forall2_app_inv_r in F as (u1 & u2 & F1 & F2 & ->).
    inversion F2 as [|y c' l1 l2 S1 F3]; subst. inversion F3; subst.
    destruct S1 as (p & cl & -> & H1 & H2).
    apply pre_snoc in P as [P Hf]; [|auto].
    exists p. split; [apply A, Rd; eauto|]. exists cl. split; [auto|]. split; [auto|].
    apply FT. eauto.
Qed.

Lemma pre_cut r u1 y u2 x : pre r (u1 ++ y :: u2) x -> pre r u1 y.
Proof. intros [v H]. rewrite <- app_assoc in H. cbn in H. eexists. exact H. Qed.

(** ** prefixes of the stream *)
Lemma prefix_snoc s n : forall p, prefix s p (S n) = prefix s p n ++ [s (p + Z.of_nat n)].
Proof.
  induction n as [|n IH]; intros p.
  - cbn. now rewrite Z.add_0_r.
  - change (prefix s p (S (S n))) with (s p :: prefix s (p + 1) (S n)). rewrite IH.
    cbn [prefix app]. do 3 f_equal. f_equal. lia.
Qed.
Lemma prefix_length s n : forall p, length (prefix s p n) = n.
Proof. induction n; cbn; auto. Qed.
Lemma prefix_app s n m : forall p, prefix s p (n + m) = prefix s p n ++ prefix s (p + Z.of_nat n) m.
Proof.
  induction n as [|n IH]; intros p.
  - cbn [Nat.add prefix app]. now rewrite Z.add_0_r.
  - cbn [Nat.add prefix app]. rewrite IH. do 3 f_equal. lia.
Qed.

(** ** Running an entry point *)
Section Run.
  Variables (ld : lexdef) (d : dfa) (chars : list (list Z)) (regs : list (name * regexp))
            (follow : list (list transition)) (M : list (list transition * Z)).
  Hypothesis HE : encode_lexdef ld = Ret (chars, regs, d_actions d).
  Hypothesis HF : followpos (length chars) regs = Ret follow.
  Hypothesis HM : forall st i, In (st, i) M -> exists a, asub (d_states d) i = Ret a /\ state_ok chars follow M st a.
  Hypothesis HK : rule_count ld <= 32767.
  Variables (s : Z -> Z) (p0 : Z).
  Hypothesis HS : forall p, 0 <= s p < 256.
  Variables (rules : casedef) (r : name * regexp) (cnt : Z) (es : list regexp).
  Hypothesis Hr : In r regs.
  Hypothesis Hlin : linear (snd r).
  Hypothesis Hes : Forall2 (encodes chars) rules es.
  Hypothesis Hacts : forall i c, nth_error rules i = Some c -> In (cnt + Z.of_nat i, snd c) (concat (d_actions d)).
  Hypothesis Hlang : forall u, lang (snd r) u <-> u = [] \/
       exists i e u1, nth_error es i = Some e /\ u = u1 ++ [ToAction (cnt + Z.of_nat i)] /\ lang e u1.

  Notation RM := (rule_matches [] rules).

  Lemma es_rule i e : nth_error es i = Some e -> exists c, nth_error rules i = Some c /\ encodes chars c e.
  Proof.
    clear -Hes. revert i. induction Hes as [|c e0 l1 l2 H F IH]; intros i E.
    - now destruct i.
    - destruct i as [|i]; cbn in *; [injection E as ->; eauto|eauto].
  Qed.
  Lemma rule_es i c : nth_error rules i = Some c -> exists e, nth_error es i = Some e /\ encodes chars c e.
  Proof.
    clear -Hes. revert i. induction Hes as [|c0 e0 l1 l2 H F IH]; intros i E.
    - now destruct i.
    - destruct i as [|i]; cbn in *; [injection E as ->; eauto|eauto].
  Qed.

  Lemma spelled_chars u w t : Forall2 (spells chars) u w -> In t u -> exists p, t = OnChars p.
  Proof.
    induction 1 as [|a c l1 l2 S1 F IH]; cbn; [tauto|]. intros [<-|H]; [|auto].
    destruct S1 as (p & cl & -> & _). eauto.
  Qed.

  (** actions in the set of a word are the rules that match the word *)
  Lemma reads_action w st a : reads chars (snd r) w st ->
    (In (ToAction a) st <-> exists i, a = cnt + Z.of_nat i /\ RM i w).
  Proof.
    intros Rd. rewrite (Rd (ToAction a)). split.
    - intros (u & F & v & P). apply Hlang in P as [P|(i & e & u1 & Ee & Eu & Le)]; [now destruct u|].
      destruct (es_rule _ _ Ee) as ([re0 l0] & Ec & Em & Ep). cbn in Em.
      assert (EQ : u1 = u /\ ToAction (cnt + Z.of_nat i) = ToAction a).
      { apply app_mid_split in Eu as [(v' & E1 & E2)|(u' & E1 & E2)].
        - exfalso. assert (H : In (ToAction a) (poss e)).
          { eapply lang_poss; [exact Le|]. rewrite E1. apply in_elt. }
          destruct (Ep _ H) as [p [=]].
        - destruct u' as [|y u']; cbn in E2; [|injection E2 as _ E2; now destruct u'].
          rewrite app_nil_r in E1. injection E2 as E2 E3. split; congruence. }
      destruct EQ as [-> [= <-]]. exists i. split; [auto|]. exists re0, l0. split; [auto|].
      apply Em. eauto.
    - intros (i & -> & re0 & l0 & Ec & Mt). destruct (rule_es _ _ Ec) as (e & Ee & Em & Ep). cbn in Em.
      destruct (proj1 (Em _) Mt) as (u & Lu & F). exists u. split; [auto|]. exists []. apply Hlang. right. eauto 6.
  Qed.

  (** nothing longer matches if the set is empty *)
  Lemma reads_longer w st w2 i : reads chars (snd r) w st -> RM i (w ++ w2) ->
    exists x, In x st /\ (w2 <> [] -> exists p, x = OnChars p).
  Proof.
    intros Rd (re0 & l0 & Ec & Mt). destruct (rule_es _ _ Ec) as (e & Ee & Em & Ep). cbn in Em.
    destruct (proj1 (Em _) Mt) as (u & Lu & F). apply Forall2_app_inv_r in F as (u1 & u2 & F1 & F2 & ->).
    assert (P : pre (snd r) (u1 ++ u2) (ToAction (cnt + Z.of_nat i))).
    { exists []. apply Hlang. right. exists i, e, (u1 ++ u2). auto. }
    destruct u2 as [|y u2].
    - rewrite app_nil_r in P. inversion F2; subst. exists (ToAction (cnt + Z.of_nat i)).
      split; [apply Rd; eauto|congruence].
    - apply pre_cut in P. exists y. split; [apply Rd; eauto|]. intros _.
      eapply spelled_chars; [exact F2|now left].
  Qed.

  (** if all classes are inhabited, a set that is not empty announces a match *)
  Lemma reads_viable w st x : (forall cl, In cl chars -> cl <> []) ->
    reads chars (snd r) w st -> In x st -> exists i w2, RM i (w ++ w2) /\ (forall p, x = OnChars p -> w2 <> []).
  Proof.
    intros NE Rd Hx. apply Rd in Hx as (u & F & v & P).
    apply Hlang in P as [P|(i & e & u1 & Ee & Eu & Le)]; [now destruct u|].
    destruct (es_rule _ _ Ee) as ([re0 l0] & Ec & Em & Ep). cbn in Em.
    assert (EX : exists u2, u1 = u ++ u2 /\ (forall p, x = OnChars p -> u2 <> [])).
    { apply app_mid_split in Eu as [(v' & E1 & E2)|(u' & E1 & E2)].
      - exists (x :: v'). split; [auto|discriminate].
      - destruct u' as [|y u']; cbn in E2; [|injection E2 as _ E2; now destruct u'].
        exists []. rewrite app_nil_r in E1. rewrite app_nil_r. split; [auto|]. congruence. }
    destruct EX as (u2 & -> & NU).
    assert (W2 : exists w2, Forall2 (spells chars) u2 w2).
    { assert (HB : forall t, In t u2 -> exists p cl, t = OnChars p /\ asub chars p = Ret cl).
      { intros t Ht. destruct (Ep t) as [p ->].
        { eapply lang_poss; [exact Le|]. apply in_app_iff. auto. }
        destruct (encode_lexdef_spec _ _ _ _ HE) as (_ & _ & _ & _ & A5 & _).
        destruct (asub_ret chars p) as [cl Hcl]; [|eauto].
        apply (A5 r Hr (OnChars p)). apply (lang_poss (snd r) ((u ++ u2) ++ [ToAction (cnt + Z.of_nat i)])).
        - apply Hlang. right. exists i, e, (u ++ u2). auto.
        - apply in_app_iff. left. apply in_app_iff. auto. }
      clear -HB NE. induction u2 as [|t u2 IH]; [exists []; constructor|].
      destruct IH as [w2 F]; [intros; apply HB; now right|].
      destruct (HB t (or_introl eq_refl)) as (p & cl & -> & Ecl).
      assert (Hcl : cl <> []) by (apply asub_some in Ecl as [_ Ecl]; apply nth_error_In in Ecl; auto).
      destruct cl as [|c cl]; [congruence|]. exists (c :: w2). constructor; [|auto].
      exists p, (c :: cl). split; [auto|]. split; [auto|now left]. }
    destruct W2 as [w2 F2]. exists i, w2. split.
    - exists re0, l0. split; [auto|]. apply Em. exists (u ++ u2). split; [auto|]. now apply Forall2_app.
    - intros p Ex ->. inversion F2; subst. now apply (NU p).
  Qed.

  (** what is remembered after the first [k] prefixes (shorter than [k]) *)
  Definition best (a : Z) (n : nat) : Prop :=
    exists i, a = cnt + Z.of_nat i /\ RM i (prefix s p0 n) /\ forall j, (j < i)%nat -> ~ RM j (prefix s p0 n).
  Definition last_ok (last : option (Z * Z)) (k : nat) : Prop :=
    match last with
    | None => forall j n, (n < k)%nat -> ~ RM j (prefix s p0 n)
    | Some (a, q) => exists n, (n < k)%nat /\ q = p0 + Z.of_nat n /\ best a n /\
        forall j n', (n < n' < k)%nat -> ~ RM j (prefix s p0 n')
    end.
  Definition result_ok (res : lexres) : Prop :=
    match res with
    | Token l q => exists i n re0, nth_error rules i = Some (re0, l) /\ q = p0 + Z.of_nat n /\ selects [] rules s p0 i n
    | Illegal => no_rule [] rules s p0
    | NotCompiled => forall j w, RM j w -> w = []
    end.

  Lemma acts_range i c : nth_error rules i = Some c -> 0 <= cnt + Z.of_nat i < no_action.
  Proof.
    intros E. destruct (encode_lexdef_spec _ _ _ _ HE) as (_ & _ & A3 & _).
    apply Hacts in E. apply (in_map fst) in E. apply A3 in E. cbn in E. unfold no_action. lia.
  Qed.

  Lemma run_action_ok i c q : nth_error rules i = Some c -> run_action d (cnt + Z.of_nat i) q = Token (snd c) q.
  Proof.
    intros E. apply Hacts in E. destruct (encode_lexdef_spec _ _ _ _ HE) as (_ & A2 & _).
    unfold run_action. revert E A2. generalize (concat (d_actions d)). generalize (cnt + Z.of_nat i). clear.
    intros a l. induction l as [|[k lo] l IH]; cbn; [tauto|]. intros H N. inversion N as [|? ? N1 N2]; subst.
    destruct H as [[= -> ->]|H].
    - now rewrite Z.eqb_refl.
    - destruct (Z.eqb_spec a k) as [->|Ne]; [|auto]. destruct N1. apply (in_map fst) in H. exact H.
  Qed.

  (** the remembered action is the result when nothing longer matches *)
  Lemma backtrack_ok last k : last_ok last k -> (forall j n, (k <= n)%nat -> ~ RM j (prefix s p0 n)) ->
    result_ok (backtrack d last).
  Proof.
    intros LO NL. destruct last as [[a q]|]; cbn in *.
    - destruct LO as (n & Hn & -> & (i & -> & B1 & B2) & B3). assert (B1' := B1). destruct B1' as (re0 & l0 & Ei & Mi).
      rewrite (run_action_ok _ _ _ Ei). cbn. exists i, n, re0. split; [auto|]. split; [auto|].
      split; [auto|]. split; [auto|]. intros j n' Hn'.
      destruct (Nat.lt_ge_cases n' k); [apply B3; lia|apply NL; lia].
    - intros j n. destruct (Nat.lt_ge_cases n k); [apply LO; lia|apply NL; lia].
  Qed.

  (** the action announced by the set of a prefix *)
  Lemma act_best k st n ps : reads chars (snd r) (prefix s p0 k) st -> split_trans_set st = (n, ps) ->
    (n = no_action /\ (forall j, ~ RM j (prefix s p0 k))) \/ (n <> no_action /\ best n k).
  Proof.
    intros Rd E. destruct (split_spec _ _ _ E) as (_ & B & C).
    assert (MIN : forall j, RM j (prefix s p0 k) -> n <= cnt + Z.of_nat j).
    { intros j Hj. apply B. apply (reads_action _ _ _ Rd). eauto. }
    destruct (Z.eq_dec n no_action) as [->|Ne].
    - left. split; [auto|]. intros j Hj. specialize (MIN j Hj). destruct Hj as (re0 & l0 & Ej & _).
      apply acts_range in Ej. lia.
    - right. split; [auto|]. destruct C as [C|C]; [congruence|].
      apply (reads_action _ _ _ Rd) in C as (i & -> & Mi). exists i. split; [auto|]. split; [auto|].
      intros j Hj Mj. specialize (MIN j Mj). lia.
  Qed.

  Lemma longer_split k n' : (k <= n')%nat -> exists w2, prefix s p0 n' = prefix s p0 k ++ w2 /\ (w2 = [] -> n' = k).
  Proof.
    intros H. exists (prefix s (p0 + Z.of_nat k) (n' - k)). split.
    - rewrite <- prefix_app. f_equal. lia.
    - intros E. apply (f_equal (@length Z)) in E. rewrite prefix_length in E. cbn in E. lia.
  Qed.

  Lemma last_step last k st n ps : reads chars (snd r) (prefix s p0 k) st -> split_trans_set st = (n, ps) ->
    last_ok last k ->
    last_ok (match (if n =? no_action then No_remember else Remember n) with
             | No_remember => last | Remember i => Some (i, p0 + Z.of_nat k) end) (S k).
  Proof.
    intros Rd E LO. destruct (act_best _ _ _ _ Rd E) as [[-> NO]|[Ne B]].
    - rewrite Z.eqb_refl. destruct last as [[a q]|]; cbn in *.
      + destruct LO as (m & H1 & H2 & H3 & H4). exists m. split; [lia|]. split; [auto|]. split; [auto|].
        intros j n' Hn. destruct (Nat.eq_dec n' k) as [->|]; [auto|]. apply H4. lia.
      + intros j m Hm. destruct (Nat.eq_dec m k) as [->|]; [auto|]. apply LO. lia.
    - destruct (Z.eqb_spec n no_action); [congruence|]. cbn. exists k. split; [lia|]. split; [auto|].
      split; [auto|]. intros j n' Hn. lia.
  Qed.

  (** one step of a state that is not final *)
  Lemma shift_case k st i : In (st, i) M -> reads chars (snd r) (prefix s p0 k) st ->
    forall what moves, asub (d_states d) i = Ret (Shift what moves) ->
    exists n ps code t, split_trans_set st = (n, ps) /\
      what = (if n =? no_action then No_remember else Remember n) /\
      output_all_trans moves = Ret code /\
      reads chars (snd r) (prefix s p0 (S k)) t /\
      move_ok M t (run_code code (s (p0 + Z.of_nat k))).
  Proof.
    intros HI Rd what moves Ea. destruct (HM _ _ HI) as (a & Ea' & n & ps & Es & SO).
    rewrite Ea in Ea'. injection Ea' as <-. destruct SO as (S1 & S2 & S3 & S4).
    destruct (output_all_trans_spec moves) as (code & Ec & RC); [intros ->; discriminate|].
    destruct (S4 (s (p0 + Z.of_nat k)) (HS _)) as (t & mv & T1 & T2 & T3).
    exists n, ps, code, t. split; [auto|]. split; [auto|]. split; [auto|]. split.
    - rewrite prefix_snoc. destruct (followpos_spec _ _ _ HF) as [_ FT].
      destruct (encode_lexdef_spec _ _ _ _ HE) as (_ & _ & _ & A4 & _).
      eapply reads_step; eauto.
    - rewrite (RC _ _ T2). exact T3.
  Qed.

  Lemma run_state_ok fuel : forall k st i last res,
    run_state fuel d s i (p0 + Z.of_nat k) last = Ret res ->
    In (st, i) M -> reads chars (snd r) (prefix s p0 k) st -> last_ok last k ->
    (k = O \/ exists what moves, asub (d_states d) i = Ret (Shift what moves)) ->
    result_ok res.
  Proof.
    induction fuel as [|fuel IH]; intros k st i last res H HI Rd LO SH; cbn [run_state] in H; [discriminate|].
    destruct (HM _ _ HI) as (a & Ea & SO). rewrite Ea in H.
    destruct a as [nn|what moves].
    - (* no function for the initial state *)
      injection H as <-. destruct SH as [->|(w & m & E)]; [|congruence].
      destruct SO as (n & ps & Es & -> & ->). destruct (split_spec _ _ _ Es) as (A & _).
      intros j w Hj. destruct w as [|c w]; [auto|]. exfalso.
      destruct (reads_longer [] st (c :: w) j) as (x & Hx & Hp); [exact Rd|exact Hj|].
      destruct Hp as [p ->]; [discriminate|]. apply A in Hx. exact Hx.
    - destruct (shift_case k st i HI Rd _ _ Ea) as (n & ps & code & t & Es & -> & Ec & Rt & MV).
      pose proof (last_step last k st n ps Rd Es LO) as LS.
      set (last1 := match (if n =? no_action then No_remember else Remember n) with
                    | No_remember => last | Remember i => Some (i, p0 + Z.of_nat k) end) in *.
      clearbody last1. rewrite Ec in H. cbn [bind] in H.
      destruct MV as [[Et Emv]|(Nt & j & Emv & HJ)]; rewrite Emv in H.
      + (* nothing longer matches *)
        injection H as <-. apply backtrack_ok with (k := S k); [exact LS|].
        intros j n' Hn Mj. destruct (longer_split (S k) n' Hn) as (w2 & E2 & _). rewrite E2 in Mj.
        destruct (reads_longer _ _ _ _ Rt Mj) as (x & Hx & _). now subst t.
      + destruct (HM _ _ HJ) as (aj & Eaj & SOj). rewrite Eaj in H. cbn [bind] in H.
        destruct aj as [nj|whatj movesj].
        * (* the set reached has actions only *)
          injection H as <-. destruct SOj as (nj' & psj & Esj & -> & ->).
          destruct (split_spec _ _ _ Esj) as (A & B & C).
          destruct (act_best (S k) t _ _ Rt Esj) as [[-> NO]|[Ne (i0 & -> & B1 & B2)]].
          -- exfalso. destruct t as [|x t]; [congruence|]. destruct x as [p|a0].
             ++ destruct (proj2 (A p)). now left.
             ++ destruct (proj1 (reads_action _ _ a0 Rt)) as (j0 & _ & Mj); [now left|]. now apply (NO j0).
          -- assert (B1' := B1). destruct B1' as (re0 & l0 & Ei & Mi).
             rewrite (run_action_ok _ _ _ Ei). cbn. exists i0, (S k), re0. split; [auto|].
             split; [lia|]. split; [auto|]. split; [auto|].
             intros j0 n' Hn Mj. destruct (longer_split (S k) n') as (w2 & E2 & E3); [lia|]. rewrite E2 in Mj.
             destruct (reads_longer _ _ _ _ Rt Mj) as (x & Hx & Hp).
             destruct Hp as [p ->]; [intros ->; specialize (E3 eq_refl); lia|]. apply A in Hx. exact Hx.
        * replace (p0 + Z.of_nat k + 1) with (p0 + Z.of_nat (S k)) in H by lia.
          eapply IH; [exact H|exact HJ|exact Rt|exact LS|]. right. eauto.
  Qed.

  (** if no match extends the first [N] characters, N + 1 calls are enough *)
  Lemma run_state_ret N : (forall cl, In cl chars -> cl <> []) ->
    (forall j w2, ~ RM j (prefix s p0 N ++ w2)) ->
    forall fuel k st i last, (fuel + k = N + 1)%nat -> (st <> [] \/ k = O) ->
    In (st, i) M -> reads chars (snd r) (prefix s p0 k) st ->
    exists res, run_state fuel d s i (p0 + Z.of_nat k) last = Ret res.
  Proof.
    intros NE NV. induction fuel as [|fuel IH]; intros k st i last Hk Hst HI Rd.
    - exfalso. destruct Hst as [Hst| ->]; [|lia]. destruct st as [|x st]; [congruence|].
      destruct (reads_viable _ _ x NE Rd) as (j & w2 & Mj & _); [now left|].
      destruct (longer_split N k) as (w3 & E3 & _); [lia|]. rewrite E3, <- app_assoc in Mj. eapply NV; eauto.
    - cbn [run_state]. destruct (HM _ _ HI) as (a & Ea & SO). rewrite Ea. destruct a as [nn|what moves]; [eauto|].
      destruct (shift_case k st i HI Rd _ _ Ea) as (n & ps & code & t & Es & -> & Ec & Rt & MV).
      rewrite Ec. cbn [bind]. destruct MV as [[Et Emv]|(Nt & j & Emv & HJ)]; rewrite Emv; [eauto|].
      destruct (HM _ _ HJ) as (aj & Eaj & SOj). rewrite Eaj. cbn [bind]. destruct aj as [nj|wj mj]; [eauto|].
      replace (p0 + Z.of_nat k + 1) with (p0 + Z.of_nat (S k)) by lia.
      eapply IH; [lia|left; exact Nt|exact HJ|exact Rt].
  Qed.
End Run.
