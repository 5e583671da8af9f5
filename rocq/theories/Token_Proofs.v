(** Proofs for C51. *)
From Verif Require Import Base ArrayLib Lex_Model Lex_Spec Lex_Props Token_Model Token_Spec.

(** ** Words of regular expressions *)
Lemma chars_words ds cl w : matches ds (Characters cl) w <-> exists c, w = [c] /\ In c cl.
Proof.
  split.
  - intros H. inversion H; subst. eauto.
  - intros (c & -> & H). now constructor.
Qed.
Lemma seq_words ds r1 r2 w :
  matches ds (Sequence r1 r2) w <-> exists w1 w2, w = w1 ++ w2 /\ matches ds r1 w1 /\ matches ds r2 w2.
Proof.
  split.
  - intros H. inversion H; subst. eauto.
  - intros (w1 & w2 & -> & H1 & H2). now constructor.
Qed.
Lemma alt_words ds r1 r2 w : matches ds (Alternative r1 r2) w <-> matches ds r1 w \/ matches ds r2 w.
Proof.
  split.
  - intros H. inversion H; subst; auto.
  - intros [H|H]; [now apply m_alt1|now apply m_alt2].
Qed.
Lemma eps_words ds w : matches ds Epsilon w <-> w = [].
Proof. split; [intros H; now inversion H|intros ->; constructor]. Qed.
Lemma rep_words ds cl w : matches ds (Repetition (Characters cl)) w <-> Forall (fun c => In c cl) w.
Proof.
  split.
  - remember (Repetition (Characters cl)) as r eqn:E. intros H. induction H; try discriminate; [constructor|].
    injection E as ->. apply chars_words in H as (c & -> & Hc). constructor; auto.
  - induction 1 as [|c w Hc F IH]; [constructor|]. change (c :: w) with ([c] ++ w). constructor; [now constructor|exact IH].
Qed.
Lemma plus_words ds cl w : matches ds (plus (Characters cl)) w <-> w <> [] /\ Forall (fun c => In c cl) w.
Proof.
  unfold plus. rewrite seq_words. split.
  - intros (w1 & w2 & -> & H1 & H2). apply chars_words in H1 as (c & -> & Hc). apply rep_words in H2.
    split; [discriminate|]. now constructor.
  - intros [N F]. destruct F as [|c w Hc F]; [congruence|]. exists [c], w. split; [reflexivity|].
    split; [now constructor|now apply rep_words].
Qed.
Lemma one_words ds c w : matches ds (one c) w <-> w = [c].
Proof.
  unfold one. rewrite chars_words. split.
  - intros (x & -> & [->|[]]). reflexivity.
  - intros ->. exists c. split; [auto|now left].
Qed.
Lemma in_char_class c a b : In c (char_class a b) <-> a <= c <= b.
Proof.
  unfold char_class. rewrite in_map_iff. split.
  - intros (i & <- & H). apply in_seq in H. lia.
  - intros H. exists (Z.to_nat (c - a)). split; [lia|]. apply in_seq. lia.
Qed.

(** words without the character 0 *)
Lemma words_no_zero ds r w : (forall n q, ~ In (n, q) ds) -> (forall cl, In cl (classes r) -> ~ In 0 cl) -> matches ds r w -> ~ In 0 w.
Proof.
  intros ND H M. revert ND H. induction M; cbn [classes]; intros ND H0.
  - auto.
  - intros [->|[]]. apply (H0 cl); [now left|auto].
  - rewrite in_app_iff. intros [H|H].
    + apply IHM1 in H; auto. intros cl Hc. apply H0, in_app_iff. auto.
    + apply IHM2 in H; auto. intros cl Hc. apply H0, in_app_iff. auto.
  - apply IHM; auto. intros cl Hc. apply H0, in_app_iff. auto.
  - apply IHM; auto. intros cl Hc. apply H0, in_app_iff. auto.
  - auto.
  - rewrite in_app_iff. intros [H|H]; [now apply IHM1 in H|now apply IHM2 in H].
  - destruct (ND s r). apply in_elt.
Qed.

(** ** What is needed of the definition *)
Definition zero_ok (r : re) : bool :=
  forallb (fun cl => negb (existsb (Z.eqb 0) cl)) (classes r) ||
  match r with Alternative (Characters [_]) (Characters [_]) => true | _ => false end.
Definition definition_ok (ld : lexdef) : bool :=
  forallb (fun d : name * casedef =>
             forallb (fun c : re * location => forallb (fun cl : list Z => negb (match cl with [] => true | _ => false end)) (classes (fst c))) (snd d)) ld.
Lemma definition_classes ld : definition_ok ld = true -> all_class (fun cl => cl <> []) [] ld.
Proof.
  intros H. split; [intros ? ? []|]. intros d c Hd Hc. unfold definition_ok in H.
  rewrite forallb_forall in H. specialize (H d Hd). rewrite forallb_forall in H. specialize (H c Hc).
  rewrite forallb_forall in H. apply Forall_forall. intros cl Hcl ->. apply H in Hcl. discriminate.
Qed.
Lemma zero_ok_words r w : zero_ok r = true -> matches [] r w -> (2 <= length w)%nat -> ~ In 0 w.
Proof.
  intros H M L. unfold zero_ok in H. apply orb_prop in H as [H|H].
  - apply (words_no_zero [] r); [intros n q []| |exact M]. intros cl Hcl H0. rewrite forallb_forall in H.
    apply H in Hcl. assert (E : existsb (Z.eqb 0) cl = true) by (apply existsb_exists; exists 0; now split).
    now rewrite E in Hcl.
  - exfalso. destruct r as [| | |r1 r2| |]; try discriminate. destruct r1 as [|[|a [|]]| | | |]; try discriminate.
    destruct r2 as [|[|b [|]]| | | |]; try discriminate. apply alt_words in M.
    destruct M as [M|M]; apply chars_words in M as (c & -> & _); cbn in L; lia.
Qed.

(** the entry points *)
Lemma def_nodup : NoDup (map fst lexer_definition).
Proof. vm_compute. repeat (constructor; [cbn; intuition discriminate|]). constructor. Qed.
Lemma def_classes : all_class (fun cl => cl <> []) [] lexer_definition.
Proof. apply definition_classes. vm_compute. reflexivity. Qed.
Lemma def_zero e rules r l w : In (e, rules) lexer_definition -> In (r, l) rules ->
  matches [] r w -> (2 <= length w)%nat -> ~ In 0 w.
Proof.
  intros He Hr. apply zero_ok_words.
  assert (A : forallb (fun d : name * casedef => forallb (fun c : re * location => zero_ok (fst c)) (snd d)) lexer_definition = true) by (vm_compute; reflexivity).
  rewrite forallb_forall in A. specialize (A _ He). cbn [snd] in A. rewrite forallb_forall in A. exact (A _ Hr).
Qed.

(** ** Prefixes *)
Lemma prefix_length s n : forall p, length (prefix s p n) = n.
Proof. induction n as [|n IH]; cbn; intros p; [auto|]. now rewrite IH. Qed.
Lemma prefix_app s n m : forall p, prefix s p (n + m) = prefix s p n ++ prefix s (p + Z.of_nat n) m.
Proof.
  induction n as [|n IH]; intros p; cbn [prefix Nat.add app]; [f_equal; lia|]. rewrite IH. do 3 f_equal. lia.
Qed.
Lemma prefix_in s n c : forall p, In c (prefix s p n) <-> exists q, p <= q < p + Z.of_nat n /\ s q = c.
Proof.
  induction n as [|n IH]; intros p; cbn [prefix In].
  - split; [tauto|]. intros (q & H & _). lia.
  - rewrite IH. split.
    + intros [<-|(q & H & <-)]; [exists p|exists q]; split; auto; lia.
    + intros (q & H & <-). destruct (Z.eq_dec q p) as [->|N]; [now left|]. right. exists q. split; [lia|auto].
Qed.
Lemma prefix_nth s n : forall p i, (i < n)%nat -> nth_error (prefix s p n) i = Some (s (p + Z.of_nat i)).
Proof.
  induction n as [|n IH]; intros p i H; [lia|]. destruct i as [|i]; cbn [prefix nth_error].
  - do 2 f_equal. lia.
  - rewrite IH by lia. do 2 f_equal. lia.
Qed.

Lemma selects_unique ds rules s p i n i' n' :
  selects ds rules s p i n -> selects ds rules s p i' n' -> i = i' /\ n = n'.
Proof.
  intros (A1 & A2 & A3) (B1 & B2 & B3).
  assert (E : n = n').
  { destruct (Nat.lt_trichotomy n n') as [H|[H|H]]; [|auto|].
    - destruct (A3 i' n' H B1).
    - destruct (B3 i n H A1). }
  subst n'. split; [|auto]. destruct (Nat.lt_trichotomy i i') as [H|[H|H]]; [|auto|].
  - destruct (B2 i H A1).
  - destruct (A2 i' H B1).
Qed.

(** ** Fuel *)
Definition le_out {A} (o o' : outcome A) : Prop := o = Diverge \/ o = o'.
Lemma le_refl {A} (o : outcome A) : le_out o o.
Proof. now right. Qed.
Lemma le_div {A} (o : outcome A) : le_out Diverge o.
Proof. now left. Qed.
Lemma le_bind {A B} (m m' : outcome A) (k k' : A -> outcome B) :
  le_out m m' -> (forall x, le_out (k x) (k' x)) -> le_out (bind m k) (bind m' k').
Proof. intros [->| ->] H; [now left|]. destruct m'; cbn; auto using le_refl. Qed.

Lemma run_state_mono d s fuel : forall fuel' n p last, (fuel <= fuel')%nat ->
  le_out (run_state fuel d s n p last) (run_state fuel' d s n p last).
Proof.
  induction fuel as [|fuel IH]; intros fuel' n p last H; [apply le_div|].
  destruct fuel' as [|fuel']; [lia|]. cbn [run_state].
  destruct (asub (d_states d) n) as [[a|what moves]|?| |]; try apply le_refl.
  apply le_bind; [apply le_refl|]. intros k. destruct (run_code k (s p)) as [|dest]; [apply le_refl|].
  apply le_bind; [apply le_refl|]. intros [a|w m]; [apply le_refl|]. apply IH. lia.
Qed.
Lemma call_mono d s e p fuel fuel' : (fuel <= fuel')%nat -> le_out (call fuel d s e p) (call fuel' d s e p).
Proof.
  intros H. unfold call. apply le_bind; [|intros; apply le_refl]. unfold run_entry.
  destruct (find_entry (d_initial d) (codes e)); [now apply run_state_mono|apply le_refl].
Qed.

Ltac mono := repeat first
  [ apply le_refl
  | apply le_div
  | apply le_bind; [|intros]
  | match goal with |- le_out (if ?b then _ else _) _ => destruct b end
  | match goal with |- le_out (match ?x with _ => _ end) _ => destruct x end
  | progress cbv zeta ].

Section Mono.
  Variables (d : dfa) (s : Z -> Z).
  Lemma SkipString_mono saved fuel : forall fuel' p, (fuel <= fuel')%nat ->
    le_out (SkipString d s fuel saved p) (SkipString d s fuel' saved p).
  Proof.
    induction fuel as [|fuel IH]; intros fuel' p H; [apply le_div|]. destruct fuel' as [|fuel']; [lia|].
    cbn [SkipString]. apply le_bind; [apply call_mono; lia|]. intros [l q]. mono; apply IH; lia.
  Qed.
  Lemma skipString_mono {A} m saved p q fuel fuel' : (fuel <= fuel')%nat ->
    le_out (@skipString d s A fuel m saved p q) (skipString d s fuel' m saved p q).
  Proof. intros H. unfold skipString. apply le_bind; [now apply SkipString_mono|]. intros; apply le_refl. Qed.
  Lemma String_mono saved fuel : forall fuel' p b, (fuel <= fuel')%nat ->
    le_out (String d s fuel saved p b) (String d s fuel' saved p b).
  Proof.
    induction fuel as [|fuel IH]; intros fuel' p b H; [apply le_div|]. destruct fuel' as [|fuel']; [lia|].
    cbn [String]. apply le_bind; [apply call_mono; lia|]. intros [l q].
    mono; first [apply IH; lia|apply skipString_mono; lia|apply SkipString_mono; lia].
  Qed.
  Lemma Comment_mono saved fuel : forall fuel' p depth, (fuel <= fuel')%nat ->
    le_out (Comment d s fuel saved p depth) (Comment d s fuel' saved p depth).
  Proof.
    induction fuel as [|fuel IH]; intros fuel' p b H; [apply le_div|]. destruct fuel' as [|fuel']; [lia|].
    cbn [Comment]. apply le_bind; [apply call_mono; lia|]. intros [l q]. mono; apply IH; lia.
  Qed.
  Lemma TokenN_mono fuel : forall fuel' p b, (fuel <= fuel')%nat ->
    le_out (TokenN d s fuel p b) (TokenN d s fuel' p b).
  Proof.
    induction fuel as [|fuel IH]; intros fuel' p b H; [apply le_div|]. destruct fuel' as [|fuel']; [lia|].
    cbn [TokenN]. apply le_bind; [apply call_mono; lia|]. intros [l q]. cbv zeta.
    assert (HI : forall p b, le_out (TokenN d s fuel p b) (TokenN d s fuel' p b)) by (intros; apply IH; lia).
    assert (HC : forall p q x, le_out (Comment d s fuel p q x) (Comment d s fuel' p q x)) by (intros; apply Comment_mono; lia).
    assert (HS : forall p q x, le_out (scanString d s fuel p q x) (scanString d s fuel' p q x)) by (intros; unfold scanString; apply String_mono; lia).
    assert (HT : forall p b, le_out (TokenId d s fuel p b) (TokenId d s fuel' p b)).
    { intros p1 b1. unfold TokenId. apply le_bind; [apply call_mono; lia|]. intros; apply le_refl. }
    destruct (l =? 233); [apply HI|].
    destruct (l =? 234); [apply le_bind; [apply HC|]; intros [q1|m p1 p2]; [apply HI|apply le_refl]|].
    do 11 match goal with |- le_out (if ?b then _ else _) _ => destruct b; [apply le_refl|] end.
    destruct (l =? 272); [apply le_bind; [apply HS|]; intros; apply le_refl|].
    destruct (l =? 276); [apply le_bind; [apply HS|]; intros; apply le_refl|].
    destruct (l =? 310); [apply le_refl|]. destruct (l =? 311); [apply HT|apply le_refl].
  Qed.
End Mono.

(** ** Calling an entry point *)

(** of the rules, the one at line [l] is selected, with [n] characters *)
Definition step (rules : casedef) (s : Z -> Z) (p l : Z) (n : nat) : Prop :=
  exists i r l', nth_error rules i = Some (r, Location l l') /\ selects [] rules s p i n.

Lemma step_unique rules s p l n l' n' : step rules s p l n -> step rules s p l' n' -> l = l' /\ n = n'.
Proof.
  intros (i & r & x & E & H) (i' & r' & x' & E' & H'). destruct (selects_unique _ _ _ _ _ _ _ _ H H') as [<- <-].
  rewrite E in E'. injection E' as _ <- _. auto.
Qed.

Definition generated (d : dfa) : Prop := exists fuel, generate fuel [] lexer_definition = Ret d.
Definition is_bytes (l : list Z) : Prop := Forall (fun c => 0 <= c < 256) l.
Lemma source_bytes src : is_bytes src -> forall q, 0 <= source src q < 256.
Proof.
  intros H q. unfold source. destruct (nth_in_or_default (Z.to_nat q) src 0) as [Hi|E]; [|rewrite E; lia].
  unfold is_bytes in H. rewrite Forall_forall in H. now apply H.
Qed.

Section Calls.
  Variables (d : dfa) (src : list Z).
  Hypothesis (HG : generated d) (HB : is_bytes src).
  Notation s := (source src).

  Lemma call_step e rules p : In (codes e, rules) lexer_definition -> 0 <= p <= zlen src ->
    (exists i r l c w, nth_error rules i = Some (r, l) /\ matches [] r (c :: w)) ->
    (exists j k, rule_matches [] rules j (prefix s p k)) ->
    exists l n F, step rules s p l n /\
      (forall fuel, le_out (call fuel d s e p) (Ret (l, p + Z.of_nat n))) /\
      (forall fuel, (F <= fuel)%nat -> call fuel d s e p = Ret (l, p + Z.of_nat n)).
  Proof.
    intros HI Hp (i0 & r0 & l0 & c0 & w0 & Hi0 & Hm0) (j0 & k0 & Hj0). destruct HG as [fg Hg].
    set (N := (Z.to_nat (zlen src - p) + 2)%nat).
    assert (NV : forall i w, ~ rule_matches (rev []) rules i (prefix s p N ++ w)).
    { intros i w (r & l & Hr & Hm). cbn [rev] in Hm.
      eapply def_zero; [exact HI|eapply nth_error_In; exact Hr|exact Hm| |].
      - rewrite app_length, prefix_length. unfold N. lia.
      - apply in_app_iff. left. apply prefix_in. exists (zlen src). split; [unfold N; lia|].
        unfold source, zlen. apply nth_overflow. lia. }
    destruct (C37_returns fg [] lexer_definition d Hg def_nodup def_classes (codes e) rules HI s p (source_bytes src HB) N NV) as [res Hres].
    pose proof (C37_longest_match_partial fg [] lexer_definition d Hg def_nodup ltac:(vm_compute; discriminate) (codes e) rules HI s p
                  (source_bytes src HB) (N + 1) res Hres) as HL.
    destruct res as [l q| |].
    - destruct l as [l l']. destruct HL as (i & n & r & Hi & -> & Hs). cbn [rev] in Hs.
      exists l, n, (N + 1)%nat. split; [exists i, r, l'; auto|].
      assert (C : forall fuel, (N + 1 <= fuel)%nat -> call fuel d s e p = Ret (l, p + Z.of_nat n)).
      { intros fuel Hf. destruct (call_mono d s e p _ _ Hf) as [E|E]; unfold call at 1 in E; rewrite Hres in E; cbn in E.
        - discriminate.
        - now rewrite <- E. }
      split; [|exact C]. intros fuel. rewrite <- (C (Nat.max fuel (N + 1))) by lia. apply call_mono. lia.
    - exfalso. exact (HL j0 k0 Hj0).
    - exfalso. specialize (HL i0 (c0 :: w0)). cbn [rev] in HL.
      assert (X : c0 :: w0 = []) by (apply HL; exists r0, l0; auto). discriminate.
  Qed.

  (** the same, when the selected rule is known *)
  Lemma call_known e rules p l n : In (codes e, rules) lexer_definition -> 0 <= p <= zlen src ->
    (exists i r l c w, nth_error rules i = Some (r, l) /\ matches [] r (c :: w)) ->
    step rules s p l n -> exists F, forall fuel, (F <= fuel)%nat -> call fuel d s e p = Ret (l, p + Z.of_nat n).
  Proof.
    intros HI Hp HN HS. destruct (call_step e rules p HI Hp HN) as (l1 & n1 & F & H1 & H2 & H3).
    - destruct HS as (i & r & l' & E & (M & _)). eauto.
    - destruct (step_unique _ _ _ _ _ _ _ HS H1) as [<- <-]. eauto.
  Qed.
End Calls.
