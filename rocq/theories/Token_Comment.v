(** Proofs for C51: comments. *)
From Coq Require Import String.
From Verif Require Import Base ArrayLib Lex_Model Lex_Spec Token_Model Token_Spec Token_Proofs Token_String Token_Scan.
Close Scope string_scope.
Open Scope list_scope.
Open Scope Z_scope.

Definition Comment_word (i : nat) (w : list Z) : Prop :=
  match i with
  | 0%nat => w = [40; 42]
  | 1%nat => w = [42; 41]
  | 2%nat => w = [0] \/ w = [26]
  | 3%nat => exists c, w = [c] /\ 1 <= c <= 255
  | _ => False
  end.
Lemma two_words ds a b w : matches ds (Sequence (one a) (one b)) w <-> w = [a; b].
Proof.
  rewrite seq_words. split.
  - intros (w1 & w2 & -> & H1 & H2). apply one_words in H1 as ->. apply one_words in H2 as ->. reflexivity.
  - intros ->. exists [a], [b]. split; [auto|]. split; now apply one_words.
Qed.
Lemma Comment_words i w : rule_matches [] Comment_rules i w <-> Comment_word i w.
Proof.
  destruct i as [|[|[|[|i]]]]; (erewrite rule_word by reflexivity) || idtac; cbn [Comment_word].
  - apply (two_words [] 40 42).
  - apply (two_words [] 42 41).
  - rewrite alt_words, one_words. unfold eof. rewrite (one_words [] 0). tauto.
  - unfold any, all_chars. rewrite chars_words. setoid_rewrite in_char_class. tauto.
  - split; [|tauto]. intros (r & l & E & _). destruct i; discriminate.
Qed.

Lemma comment_select s p i t : prefix s p (length t) = t -> Comment_word i t ->
  (forall j, (j < i)%nat -> ~ Comment_word j t) ->
  (forall j c w, prefix s p (length t + 1) = t ++ [c] -> ~ Comment_word j (t ++ c :: w)) ->
  selects [] Comment_rules s p i (length t).
Proof.
  intros E M B L. split; [|split].
  - rewrite E. now apply Comment_words.
  - intros j Hj. rewrite E, Comment_words. auto.
  - intros j n' Hn. destruct (prefix_longer _ _ _ _ E Hn) as (c & w & EW). rewrite EW, Comment_words. apply L.
    rewrite prefix_app, E. f_equal. cbn [prefix]. f_equal.
    assert (X : nth_error (prefix s p n') (length t) = Some c) by (rewrite EW, nth_error_app2, Nat.sub_diag by lia; reflexivity).
    rewrite prefix_nth in X by lia. congruence.
Qed.

(** what a step is *)
Lemma Comment_open s p : s p = 40 -> s (p + 1) = 42 -> step Comment_rules s p 348 2.
Proof.
  intros H1 H2. exists 0%nat. eexists _, _. split; [reflexivity|]. apply (comment_select s p 0 [40; 42]).
  - cbn. now rewrite H1, H2.
  - reflexivity.
  - lia.
  - intros j c w _ H. destruct j as [|[|[|[|j]]]]; cbn in H; try discriminate; auto.
    + destruct H; discriminate.
    + destruct H as (x & [=] & _).
Qed.
Lemma Comment_close s p : s p = 42 -> s (p + 1) = 41 -> step Comment_rules s p 350 2.
Proof.
  intros H1 H2. exists 1%nat. eexists _, _. split; [reflexivity|]. apply (comment_select s p 1 [42; 41]).
  - cbn. now rewrite H1, H2.
  - reflexivity.
  - intros j Hj. assert (j = 0%nat) as -> by lia. cbn. discriminate.
  - intros j c w _ H. destruct j as [|[|[|[|j]]]]; cbn in H; try discriminate; auto.
    + destruct H; discriminate.
    + destruct H as (x & [=] & _).
Qed.
Lemma Comment_plain s p c x : s p = c -> s (p + 1) = x -> 1 <= c <= 255 -> c <> 26 -> ~ (c = 40 /\ x = 42) -> ~ (c = 42 /\ x = 41) ->
  step Comment_rules s p 355 1.
Proof.
  intros H1 H2 H3 H4 H5 H6. exists 3%nat. eexists _, _. split; [reflexivity|]. apply (comment_select s p 3 [c]).
  - cbn. now rewrite H1.
  - cbn. eauto.
  - intros j Hj. destruct j as [|[|[|j]]]; cbn; try lia; try discriminate. intros [[= E]|[= E]]; lia.
  - intros j y w EP H. cbn [length Nat.add prefix app] in EP. injection EP as _ EY.
    destruct j as [|[|[|[|j]]]]; cbn in H; auto.
    + injection H as -> -> _. apply H5. split; congruence.
    + injection H as -> -> _. apply H6. split; congruence.
    + destruct H; discriminate.
    + destruct H as (z & [=] & _).
Qed.
Lemma Comment_step_cases s p l n : 0 <= s p < 256 -> step Comment_rules s p l n ->
  (l = 348 /\ n = 2%nat /\ s p = 40 /\ s (p + 1) = 42) \/
  (l = 350 /\ n = 2%nat /\ s p = 42 /\ s (p + 1) = 41) \/
  l = 353 \/
  (l = 355 /\ n = 1%nat /\ 1 <= s p <= 255 /\ s p <> 26 /\ ~ (s p = 40 /\ s (p + 1) = 42) /\ ~ (s p = 42 /\ s (p + 1) = 41)).
Proof.
  intros HS H. destruct (Z.eq_dec (s p) 0) as [E0|N0].
  { assert (X : step Comment_rules s p 353 1).
    { exists 2%nat. eexists _, _. split; [reflexivity|]. apply (comment_select s p 2 [0]).
      - cbn. now rewrite E0.
      - cbn. auto.
      - intros j Hj. destruct j as [|[|j]]; cbn; try lia; discriminate.
      - intros j c w _ Hw. destruct j as [|[|[|[|j]]]]; cbn in Hw; auto; try discriminate; [destruct Hw; discriminate|]. destruct Hw as (z & [=] & _). }
    destruct (step_unique _ _ _ _ _ _ _ H X) as [-> _]. auto. }
  destruct (Z.eq_dec (s p) 26) as [E1|N1].
  { assert (X : step Comment_rules s p 353 1).
    { exists 2%nat. eexists _, _. split; [reflexivity|]. apply (comment_select s p 2 [26]).
      - cbn. now rewrite E1.
      - cbn. auto.
      - intros j Hj. destruct j as [|[|j]]; cbn; try lia; discriminate.
      - intros j c w _ Hw. destruct j as [|[|[|[|j]]]]; cbn in Hw; auto; try discriminate; [destruct Hw; discriminate|]. destruct Hw as (z & [=] & _). }
    destruct (step_unique _ _ _ _ _ _ _ H X) as [-> _]. auto. }
  destruct (Z.eq_dec (s p) 40) as [E2|N2]; [destruct (Z.eq_dec (s (p + 1)) 42) as [E3|N3]|].
  - destruct (step_unique _ _ _ _ _ _ _ H (Comment_open s p E2 E3)) as [-> ->]. auto 10.
  - destruct (step_unique _ _ _ _ _ _ _ H (Comment_plain s p _ _ eq_refl eq_refl ltac:(lia) N1 ltac:(lia) ltac:(lia))) as [-> ->].
    right. right. right. lia.
  - destruct (Z.eq_dec (s p) 42) as [E4|N4]; [destruct (Z.eq_dec (s (p + 1)) 41) as [E5|N5]|].
    + destruct (step_unique _ _ _ _ _ _ _ H (Comment_close s p E4 E5)) as [-> ->]. auto 10.
    + destruct (step_unique _ _ _ _ _ _ _ H (Comment_plain s p _ _ eq_refl eq_refl ltac:(lia) N1 ltac:(lia) ltac:(lia))) as [-> ->].
      right. right. right. lia.
    + destruct (step_unique _ _ _ _ _ _ _ H (Comment_plain s p _ _ eq_refl eq_refl ltac:(lia) N1 ltac:(lia) ltac:(lia))) as [-> ->].
      right. right. right. lia.
Qed.

Section Comments.
  Variables (d : dfa) (src : list Z).
  Hypothesis (HG : generated d) (HB : is_bytes src).
  Notation s := (source src).

  Lemma in_comment : In (codes "Comment", Comment_rules) lexer_definition.
  Proof. cbn. tauto. Qed.
  Lemma comment_call p : 0 <= p <= zlen src ->
    exists l n F, step Comment_rules s p l n /\ (1 <= n)%nat /\ (l <> 353 -> p + Z.of_nat n <= zlen src) /\
      (forall fuel, le_out (call fuel d s "Comment" p) (Ret (l, p + Z.of_nat n))) /\
      (forall fuel, (F <= fuel)%nat -> call fuel d s "Comment" p = Ret (l, p + Z.of_nat n)).
  Proof. intros Hp. apply call_total; [exact HG|exact HB|exact in_comment|exact Hp|vm_compute; reflexivity|vm_compute; reflexivity]. Qed.
  Lemma comment_known p l n : 0 <= p <= zlen src -> step Comment_rules s p l n ->
    exists F, forall fuel, (F <= fuel)%nat -> call fuel d s "Comment" p = Ret (l, p + Z.of_nat n).
  Proof.
    intros Hp H. destruct (comment_call p Hp) as (l' & n' & F & H1 & _ & _ & _ & H3).
    destruct (step_unique _ _ _ _ _ _ _ H H1) as [<- <-]. eauto.
  Qed.

  (** texts with properly nested brackets are passed over *)
  Lemma Comment_passes t k : comment_text t k -> (2 <= length k)%nat ->
    forall saved p depth, 1 <= depth -> 0 <= p -> p + zlen (t ++ k) <= zlen src ->
    prefix s p (length (t ++ k)) = t ++ k ->
    exists F m, forall fuel, (F <= fuel)%nat -> Comment d s (m + fuel) saved p depth = Comment d s fuel saved (p + zlen t) depth.
  Proof.
    intros H. induction H as [k|c t k N0 N1 NB H IH|u t k H1 IH1 H2 IH2]; intros LK saved p depth Hd Hp HE HS.
    - exists O, O. intros fuel _. cbn [Nat.add]. change (zlen (@nil Z)) with 0. now rewrite Z.add_0_r.
    - cbn [app] in HS, HE. rewrite zlen_cons in HE. cbn [length] in HS. cbn [prefix] in HS.
      injection HS as S0 S1.
      assert (Hc : 0 <= c < 256) by (rewrite <- S0; now apply source_bytes).
      destruct (t ++ k) as [|x r] eqn:EX; [apply app_eq_nil in EX as [_ ->]; cbn in LK; lia|].
      cbn [length prefix] in S1. injection S1 as S1 S2.
      assert (NB1 : ~ (c = 40 /\ x = 42)) by (intros [-> ->]; apply NB; exists r; auto).
      assert (NB2 : ~ (c = 42 /\ x = 41)) by (intros [-> ->]; apply NB; exists r; auto).
      rewrite zlen_cons in HE. pose proof (zlen_nonneg r).
      destruct (comment_known p 355 1 ltac:(lia) (Comment_plain s p c x S0 S1 ltac:(lia) N1 NB1 NB2)) as [F HC].
      destruct (IH LK saved (p + 1) depth Hd ltac:(lia)) as (F2 & m & HR).
      + rewrite zlen_cons. lia.
      + cbn [length prefix]. now rewrite S1, S2.
      + exists (Nat.max F F2), (S m). intros fuel Hf. change (S m + fuel)%nat with (S (m + fuel)). cbn [Comment].
        rewrite HC by lia. cbn [bind Z.eqb Pos.eqb]. change (Z.of_nat 1) with 1. rewrite HR by lia. rewrite zlen_cons. f_equal. lia.
    - rewrite <- !app_assoc in HS, HE.
      destruct (prefix_split _ _ _ _ HS) as [Sa Sb]. destruct (prefix_split _ _ _ _ Sb) as [_ Sc].
      destruct (prefix_split _ _ _ _ Sc) as [Sd Se]. rewrite !zlen_app in HE. change (zlen [40; 42]) with 2 in *.
      change (zlen [42; 41]) with 2 in *. pose proof (zlen_nonneg u). pose proof (zlen_nonneg t). pose proof (zlen_nonneg k).
      cbn [length prefix] in Sa, Sd. injection Sa as Sa1 Sa2. injection Sd as Sd1 Sd2.
      destruct (comment_known p 348 2 ltac:(lia) (Comment_open s p Sa1 Sa2)) as [F HC].
      destruct (IH1 ltac:(cbn; lia) saved (p + 2) (depth + 1) ltac:(lia) ltac:(lia)) as (F1 & m1 & HR1).
      + rewrite !zlen_app. change (zlen [42; 41]) with 2. lia.
      + exact Sb.
      + destruct (comment_known (p + 2 + zlen u) 350 2 ltac:(lia) (Comment_close s _ Sd1 Sd2)) as [F' HC'].
        destruct (IH2 LK saved (p + 2 + zlen u + 2) depth Hd ltac:(lia)) as (F2 & m2 & HR2).
        * rewrite zlen_app. lia.
        * exact Se.
        * exists (F + F1 + F' + F2)%nat, (S (m1 + S m2)). intros fuel Hf.
          replace (S (m1 + S m2) + fuel)%nat with (S (m1 + (S (m2 + fuel)))) by lia. cbn [Comment].
          rewrite HC by lia. cbn [bind Z.eqb Pos.eqb]. change (p + Z.of_nat 2) with (p + 2). rewrite HR1 by lia.
          cbn [Comment]. rewrite HC' by lia. cbn [bind Z.eqb Pos.eqb]. replace (depth + 1 - 1) with depth by lia.
          replace (depth >? 0) with true by lia. change (Z.of_nat 2) with 2. rewrite HR2 by lia. f_equal.
          rewrite !zlen_app. change (zlen [40; 42]) with 2. change (zlen [42; 41]) with 2. lia.
  Qed.

  Lemma Comment_accepts saved t p : comment_rest t -> 0 <= p -> p + zlen t <= zlen src -> prefix s p (length t) = t ->
    exists F, forall fuel, (F <= fuel)%nat -> Comment d s fuel saved p 1 = Ret (Fine (p + zlen t)).
  Proof.
    intros (u & -> & H) Hp HE HS.
    destruct (Comment_passes u [42; 41] H ltac:(cbn; lia) saved p 1 ltac:(lia) Hp HE HS) as (F & m & HR).
    destruct (prefix_split _ _ _ _ HS) as [_ Sd]. cbn [length prefix] in Sd. injection Sd as Sd1 Sd2.
    rewrite zlen_app in HE. change (zlen [42; 41]) with 2 in HE. pose proof (zlen_nonneg u).
    destruct (comment_known (p + zlen u) 350 2 ltac:(lia) (Comment_close s _ Sd1 Sd2)) as [F' HC].
    exists (m + S (F + F'))%nat. intros fuel Hf. replace fuel with (m + S (fuel - m - 1))%nat by lia. rewrite HR by lia.
    cbn [Comment]. rewrite HC by lia. cbn [bind Z.eqb Pos.eqb Z.sub Z.gtb]. rewrite zlen_app. change (zlen [42; 41]) with 2.
    change (1 - 1 >? 0) with false. change (Z.of_nat 2) with 2. cbv iota. do 2 f_equal. lia.
  Qed.

  (** [closes n t]: t closes n comments *)
  Inductive closes : nat -> list Z -> Prop :=
  | cl_last u : comment_text u [42; 41] -> closes 1 (u ++ [42; 41])
  | cl_more n u t : comment_text u ([42; 41] ++ t) -> closes n t -> closes (S n) (u ++ [42; 41] ++ t).

  Lemma closes_plain n t c : closes n t -> c <> 0 -> c <> 26 -> ~ begins_bracket (c :: t) -> closes n (c :: t).
  Proof.
    intros H N0 N1 NB. destruct H as [u H|n u t H HC].
    - apply (cl_last (c :: u)). constructor; auto.
    - apply (cl_more n (c :: u) t); [|auto]. constructor; auto.
  Qed.
  Lemma closes_open n t : closes (S (S n)) t -> closes (S n) (40 :: 42 :: t).
  Proof.
    intros H. inversion H as [|m u t' H1 H2 E1 E2]; subst. inversion H2 as [u' H3 E1 E2|m u' t'' H3 H4 E1 E2]; subst.
    - change (closes 1 ([40; 42] ++ u ++ [42; 41] ++ u' ++ [42; 41])).
      replace ([40; 42] ++ u ++ [42; 41] ++ u' ++ [42; 41]) with (([40; 42] ++ u ++ [42; 41] ++ u') ++ [42; 41])
        by now rewrite <- !app_assoc.
      apply cl_last. apply c_nested; [rewrite <- ?app_assoc; exact H1|exact H3].
    - change (closes (S n) ([40; 42] ++ u ++ [42; 41] ++ u' ++ [42; 41] ++ t'')).
      replace ([40; 42] ++ u ++ [42; 41] ++ u' ++ [42; 41] ++ t'') with (([40; 42] ++ u ++ [42; 41] ++ u') ++ [42; 41] ++ t'')
        by now rewrite <- !app_assoc.
      apply cl_more; [|exact H4]. apply c_nested; [rewrite <- ?app_assoc; exact H1|exact H3].
  Qed.
  Lemma closes_length n t : closes n t -> (2 <= length t)%nat.
  Proof. destruct 1; rewrite !app_length; cbn; lia. Qed.

  Lemma Comment_returns saved fuel : forall p n q, 0 <= p <= zlen src ->
    Comment d s fuel saved p (Z.of_nat (S n)) = Ret (Fine q) ->
    exists t, prefix s p (length t) = t /\ q = p + zlen t /\ q <= zlen src /\ closes (S n) t.
  Proof.
    induction fuel as [|fuel IH]; intros p n q Hp HR; [discriminate|].
    destruct (comment_call p Hp) as (l & k & F & HS & Hn & Hin & HC & _).
    cbn [Comment] in HR. destruct (HC fuel) as [E|E]; rewrite E in HR; [discriminate|]. cbn [bind] in HR.
    destruct (Comment_step_cases s p l k (source_bytes src HB p) HS) as [(-> & -> & H1 & H2)|[(-> & -> & H1 & H2)|[->|(-> & -> & H1 & H2 & H3 & H4)]]];
      cbn [Z.eqb Pos.eqb] in HR.
    - specialize (Hin ltac:(discriminate)). replace (Z.of_nat (S n) + 1) with (Z.of_nat (S (S n))) in HR by lia.
      apply IH in HR; [|lia]. destruct HR as (t & A1 & A2 & A3 & A4). exists (40 :: 42 :: t). split.
      + cbn [length prefix]. rewrite H1, H2. change (p + Z.of_nat 2) with (p + 2) in A1.
        replace (p + 1 + 1) with (p + 2) by lia. now rewrite A1.
      + rewrite !zlen_cons. split; [lia|]. split; [exact A3|]. now apply closes_open.
    - specialize (Hin ltac:(discriminate)). destruct (Z.of_nat (S n) - 1 >? 0) eqn:ED.
      + destruct n as [|n]; [lia|]. replace (Z.of_nat (S (S n)) - 1) with (Z.of_nat (S n)) in HR by lia.
        apply IH in HR; [|lia]. destruct HR as (t & A1 & A2 & A3 & A4). exists (42 :: 41 :: t). split.
        * cbn [length prefix]. rewrite H1, H2. change (p + Z.of_nat 2) with (p + 2) in A1.
          replace (p + 1 + 1) with (p + 2) by lia. now rewrite A1.
        * rewrite !zlen_cons. split; [lia|]. split; [exact A3|]. apply (cl_more (S n) [] t); [constructor|exact A4].
      + assert (n = O) as -> by lia. injection HR as <-. exists [42; 41]. split; [cbn; now rewrite H1, H2|].
        split; [reflexivity|]. split; [lia|]. apply (cl_last []). constructor.
    - discriminate.
    - specialize (Hin ltac:(discriminate)). apply IH in HR; [|lia]. destruct HR as (t & A1 & A2 & A3 & A4).
      exists (s p :: t). split; [cbn [length prefix]; change (p + Z.of_nat 1) with (p + 1) in A1; now rewrite A1|].
      rewrite zlen_cons. split; [lia|]. split; [exact A3|]. apply closes_plain; [exact A4|lia|exact H2|].
      assert (EX : exists r, t = s (p + 1) :: r).
      { apply closes_length in A4. destruct t as [|x r]; [cbn in A4; lia|]. cbn [length prefix] in A1.
        change (p + Z.of_nat 1) with (p + 1) in A1. injection A1 as -> _. eauto. }
      destruct EX as [r ->]. intros (r' & [[= X Y _]|[= X Y _]]); tauto.
  Qed.
  Lemma Comment_returns_1 saved fuel p q : 0 <= p <= zlen src -> Comment d s fuel saved p 1 = Ret (Fine q) ->
    exists t, prefix s p (length t) = t /\ q = p + zlen t /\ q <= zlen src /\ comment_rest t.
  Proof.
    intros Hp HR. destruct (Comment_returns saved fuel p 0 q Hp HR) as (t & A1 & A2 & A3 & A4). exists t.
    do 3 (split; [assumption|]). inversion A4 as [u H E1 E2|m u t' H1 H2 E1 E2]; subst; [exists u; auto|]. inversion H2.
  Qed.

  Lemma Comment_total saved : forall p depth, 0 <= p <= zlen src ->
    exists F r, (forall fuel, (F <= fuel)%nat -> Comment d s fuel saved p depth = Ret r) /\
      match r with
      | Fine q => 0 <= p < q /\ q <= zlen src
      | Error m p1 p2 => m = CommentNotTerminated /\ p1 = saved
      end.
  Proof.
    intros p. remember (Z.to_nat (zlen src - p)) as k eqn:Ek. revert p Ek.
    induction k as [k IH] using lt_wf_ind. intros p Ek depth Hp.
    destruct (comment_call p Hp) as (l & n & F & HS & Hn & Hin & _ & HC).
    assert (GO : l <> 353 -> forall depth', exists F r, (forall fuel, (F <= fuel)%nat -> Comment d s fuel saved (p + Z.of_nat n) depth' = Ret r) /\
      match r with
      | Fine q => 0 <= p < q /\ q <= zlen src
      | Error m p1 p2 => m = CommentNotTerminated /\ p1 = saved
      end).
    { intros N depth'. specialize (Hin N).
      destruct (IH (Z.to_nat (zlen src - (p + Z.of_nat n))) ltac:(lia) (p + Z.of_nat n) eq_refl depth' ltac:(lia)) as (F2 & r & H1 & H2).
      exists F2, r. split; [exact H1|]. destruct r; [lia|exact H2]. }
    destruct (Z.eq_dec l 353) as [->|N].
    { exists (S F), (Error CommentNotTerminated saved (p + Z.of_nat n)). split; [|auto]. intros fuel Hf.
      destruct fuel as [|fuel]; [lia|]. cbn [Comment]. rewrite HC by lia. reflexivity. }
    specialize (GO N). specialize (Hin N).
    destruct (Z.eq_dec l 348) as [->|N1].
    { destruct (GO (depth + 1)) as (F2 & r & H1 & H2). exists (S (Nat.max F F2)), r. split; [|exact H2]. intros fuel Hf.
      destruct fuel as [|fuel]; [lia|]. cbn [Comment]. rewrite HC by lia. apply H1. lia. }
    destruct (Z.eq_dec l 350) as [->|N2].
    { destruct (depth - 1 >? 0) eqn:ED.
      - destruct (GO (depth - 1)) as (F2 & r & H1 & H2). exists (S (Nat.max F F2)), r. split; [|exact H2]. intros fuel Hf.
        destruct fuel as [|fuel]; [lia|]. cbn [Comment]. rewrite HC by lia. cbn [bind Z.eqb Pos.eqb]. rewrite ED. apply H1. lia.
      - exists (S F), (Fine (p + Z.of_nat n)). split; [|lia]. intros fuel Hf. destruct fuel as [|fuel]; [lia|]. cbn [Comment].
        rewrite HC by lia. cbn [bind Z.eqb Pos.eqb]. now rewrite ED. }
    destruct (GO depth) as (F2 & r & H1 & H2). exists (S (Nat.max F F2)), r. split; [|exact H2]. intros fuel Hf.
    destruct fuel as [|fuel]; [lia|]. cbn [Comment]. rewrite HC by lia. cbn [bind].
    replace (l =? 348) with false by lia. replace (l =? 350) with false by lia. replace (l =? 353) with false by lia. apply H1. lia.
  Qed.
End Comments.
