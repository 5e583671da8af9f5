(** Proofs for C51: the loops of the lexer. *)
From Coq Require Import String.
From Verif Require Import Base ArrayLib Lex_Model Lex_Spec Token_Model Token_Spec Token_Proofs Token_String.
Close Scope string_scope.
Open Scope list_scope.
Open Scope Z_scope.

(** ** Facts about rules that can be computed *)
Fixpoint re_nullable (r : re) : bool :=
  match r with
  | Epsilon => true
  | Characters _ => false
  | Sequence a b => re_nullable a && re_nullable b
  | Alternative a b => re_nullable a || re_nullable b
  | Repetition _ => true
  | Name _ => true
  end.
Lemma nullable_word ds r w : matches ds r w -> w = [] -> re_nullable r = true.
Proof.
  induction 1; cbn; intros E; auto.
  - discriminate.
  - apply app_eq_nil in E as [-> ->]. rewrite IHmatches1, IHmatches2; auto.
  - rewrite IHmatches; auto.
  - rewrite IHmatches; auto using orb_true_r.
Qed.
Definition no_zero (r : re) : bool := forallb (fun cl => negb (existsb (Z.eqb 0) cl)) (classes r).
Lemma no_zero_word r w : no_zero r = true -> matches [] r w -> ~ In 0 w.
Proof.
  intros H. apply words_no_zero; [intros n q []|]. intros cl Hcl H0. unfold no_zero in H. rewrite forallb_forall in H.
  apply H in Hcl. assert (E : existsb (Z.eqb 0) cl = true) by (apply existsb_exists; exists 0; now split).
  now rewrite E in Hcl.
Qed.

Definition line (l : location) : Z := match l with Location a _ => a end.
Fixpoint rule_at (rules : casedef) (l : Z) : option re :=
  match rules with
  | [] => None
  | (r, loc) :: rest => if line loc =? l then Some r else rule_at rest l
  end.
Fixpoint lines_nodup (rules : casedef) : bool :=
  match rules with
  | [] => true
  | (_, loc) :: rest => negb (existsb (fun c => line (snd c) =? line loc) rest) && lines_nodup rest
  end.
Lemma rule_at_nth rules : lines_nodup rules = true -> forall i r l l', nth_error rules i = Some (r, Location l l') -> rule_at rules l = Some r.
Proof.
  induction rules as [|[r0 loc] rules IH]; intros H i r l l' E; [now destruct i|]. cbn [lines_nodup] in H.
  apply andb_prop in H as [H1 H2]. cbn [rule_at]. destruct i as [|i]; cbn [nth_error] in E.
  - injection E as -> ->. cbn [line]. now rewrite Z.eqb_refl.
  - destruct (line loc =? l) eqn:EL; [|eapply IH; eauto]. exfalso. apply negb_true_iff in H1.
    assert (X : existsb (fun c : re * location => line (snd c) =? line loc) rules = true); [|congruence].
    apply existsb_exists. exists (r, Location l l'). split; [eapply nth_error_In; eauto|]. cbn [snd line]. lia.
Qed.
Lemma step_rule rules s p l n : lines_nodup rules = true -> step rules s p l n ->
  exists r, rule_at rules l = Some r /\ matches [] r (prefix s p n).
Proof.
  intros H (i & r & l' & E & (r' & l0 & E' & M) & _). exists r. split; [eapply rule_at_nth; eauto|]. congruence.
Qed.

Definition facts (rules : casedef) (zl : Z) : bool :=
  forallb (fun c : re * location => negb (re_nullable (fst c)) && ((line (snd c) =? zl) || no_zero (fst c))) rules.
Lemma step_facts rules zl s p l n : facts rules zl = true -> step rules s p l n ->
  (1 <= n)%nat /\ (l <> zl -> ~ In 0 (prefix s p n)).
Proof.
  intros H (i & r & l' & E & (r' & l0 & E' & M) & _). rewrite E in E'. injection E' as <- <-.
  unfold facts in H. rewrite forallb_forall in H. specialize (H _ (nth_error_In _ _ E)). cbn [fst snd line] in H.
  apply andb_prop in H as [H1 H2]. split.
  - destruct n as [|n]; [|lia]. cbn [prefix] in M. now rewrite (nullable_word _ _ _ M eq_refl) in H1.
  - intros N. apply orb_prop in H2 as [H2|H2]; [lia|]. now apply (no_zero_word r).
Qed.

(** a word that goes on after the end of the source contains the character 0 *)
Lemma no_zero_inside src p n : 0 <= p <= zlen src -> (1 <= n)%nat -> ~ In 0 (prefix (source src) p n) -> p + Z.of_nat n <= zlen src.
Proof.
  intros Hp Hn H. destruct (Z_le_dec (p + Z.of_nat n) (zlen src)) as [|G]; [auto|]. destruct H.
  apply prefix_in. exists (zlen src). split; [lia|]. unfold source, zlen. apply nth_overflow. lia.
Qed.

(** some rule matches a single character *)
Definition total_on (rules : casedef) : bool :=
  forallb (fun c => existsb (fun r : re * location =>
    match fst r with
    | Characters cl => existsb (Z.eqb c) cl
    | Alternative (Characters cl1) (Characters cl2) => existsb (Z.eqb c) cl1
    | _ => false
    end) rules) (char_class 0 255).
Lemma total_match rules c : total_on rules = true -> 0 <= c < 256 -> exists j, rule_matches [] rules j [c].
Proof.
  intros H Hc. unfold total_on in H. rewrite forallb_forall in H.
  specialize (H c (proj2 (in_char_class c 0 255) ltac:(lia))). apply existsb_exists in H as ([r l] & Hr & H).
  apply In_nth_error in Hr as [j Hj]. exists j, r, l. split; [exact Hj|]. cbn [fst] in H.
  assert (EX : forall cl, existsb (Z.eqb c) cl = true -> matches [] (Characters cl) [c]).
  { intros cl E. apply existsb_exists in E as (x & Hx & E). constructor. now replace c with x by lia. }
  destruct r as [|cl|r1 r2|r1 r2|r1|nm]; try discriminate; [now apply EX|].
  destruct r1 as [|cl| | | |]; try discriminate. destruct r2; try discriminate. apply m_alt1. now apply EX.
Qed.

Section Loops.
  Variables (d : dfa) (src : list Z).
  Hypothesis (HG : generated d) (HB : is_bytes src).
  Notation s := (source src).

  (** calls of an entry point that matches every character *)
  Lemma call_total e rules zl p : In (codes e, rules) lexer_definition -> 0 <= p <= zlen src ->
    total_on rules = true -> facts rules zl = true ->
    exists l n F, step rules s p l n /\ (1 <= n)%nat /\ (l <> zl -> p + Z.of_nat n <= zlen src) /\
      (forall fuel, le_out (call fuel d s e p) (Ret (l, p + Z.of_nat n))) /\
      (forall fuel, (F <= fuel)%nat -> call fuel d s e p = Ret (l, p + Z.of_nat n)).
  Proof.
    intros HI Hp HT HF.
    destruct (total_match rules (s p) HT (source_bytes src HB p)) as (j & Hj).
    destruct (call_step d src HG HB e rules p HI Hp) as (l & n & F & H1 & H2 & H3).
    - destruct Hj as (r & l & Ej & M). exists j, r, l, (s p), []. auto.
    - exists j, 1%nat. exact Hj.
    - exists l, n, F. destruct (step_facts _ _ _ _ _ _ HF H1) as [Hn Hz]. split; [exact H1|]. split; [exact Hn|].
      split; [|auto]. intros N. apply no_zero_inside; auto.
  Qed.

  (** *** SkipString *)
  Lemma in_skip : In (codes "SkipString", SkipString_rules) lexer_definition.
  Proof. cbn. tauto. Qed.
  Lemma SkipString_total saved : forall p, 0 <= p <= zlen src ->
    exists F r, forall fuel, (F <= fuel)%nat -> SkipString d s fuel saved p = Ret r.
  Proof.
    intros p Hp. remember (Z.to_nat (zlen src - p)) as k eqn:Ek. revert p Hp Ek.
    induction k as [k IH] using lt_wf_ind. intros p Hp Ek.
    destruct (call_total "SkipString" _ 406 p in_skip Hp ltac:(vm_compute; reflexivity) ltac:(vm_compute; reflexivity))
      as (l & n & F & _ & Hn & Hin & _ & HC).
    destruct (Z.eq_dec l 400) as [->|N0].
    { exists (S F), (Fine (p + Z.of_nat n)). intros fuel Hf. destruct fuel as [|fuel]; [lia|]. cbn [SkipString].
      rewrite HC by lia. reflexivity. }
    destruct (Z.eq_dec l 406) as [->|N1].
    { exists (S F), (Error StringNotTerminated saved (p + Z.of_nat n)). intros fuel Hf. destruct fuel as [|fuel]; [lia|].
      cbn [SkipString]. rewrite HC by lia. reflexivity. }
    specialize (Hin N1). destruct (IH (Z.to_nat (zlen src - (p + Z.of_nat n))) ltac:(lia) (p + Z.of_nat n) ltac:(lia) eq_refl) as (F2 & r & HR).
    exists (S (Nat.max F F2)), r. intros fuel Hf. destruct fuel as [|fuel]; [lia|]. cbn [SkipString].
    rewrite HC by lia. cbn [bind]. replace (l =? 400) with false by lia. replace (l =? 406) with false by lia.
    destruct (l =? 402); [|destruct (l =? 404)]; apply HR; lia.
  Qed.
  Lemma skipString_total {A} m saved p q : 0 <= q <= zlen src ->
    exists F m' p1 p2, forall fuel, (F <= fuel)%nat -> @skipString d s A fuel m saved p q = Ret (Error m' p1 p2).
  Proof.
    intros Hq. destruct (SkipString_total saved q Hq) as (F & r & HR). destruct r as [q1|m1 p1 p2].
    - exists F, m, p, q. intros fuel Hf. unfold skipString. now rewrite HR.
    - exists F, m1, p1, p2. intros fuel Hf. unfold skipString. now rewrite HR.
  Qed.
  Lemma skipString_error {A} m saved p q fuel x : @skipString d s A fuel m saved p q <> Ret (Fine x).
  Proof. unfold skipString. destruct (SkipString d s fuel saved q) as [[?|? ? ?]|?| |]; cbn; discriminate. Qed.

  (** *** String *)
  Lemma in_string : In (codes "String", String_rules) lexer_definition.
  Proof. cbn. tauto. Qed.
  Lemma string_call p : 0 <= p <= zlen src ->
    exists l n F, step String_rules s p l n /\ (1 <= n)%nat /\ (l <> 389 -> p + Z.of_nat n <= zlen src) /\
      (forall fuel, le_out (call fuel d s "String" p) (Ret (l, p + Z.of_nat n))) /\
      (forall fuel, (F <= fuel)%nat -> call fuel d s "String" p = Ret (l, p + Z.of_nat n)).
  Proof. intros Hp. apply call_total; [exact in_string|exact Hp|vm_compute; reflexivity|vm_compute; reflexivity]. Qed.
  Lemma string_known p l n : 0 <= p <= zlen src -> step String_rules s p l n ->
    exists F, forall fuel, (F <= fuel)%nat -> call fuel d s "String" p = Ret (l, p + Z.of_nat n).
  Proof.
    intros Hp H. destruct (string_call p Hp) as (l' & n' & F & H1 & _ & _ & _ & H3).
    destruct (step_unique _ _ _ _ _ _ _ H H1) as [<- <-]. eauto.
  Qed.

  Lemma quote_step p : s p = 34 -> step String_rules s p 359 1.
  Proof.
    intros E. exists 0%nat. eexists _, _. split; [reflexivity|]. apply (select_intro s p 0 [34]).
    - cbn. now rewrite E.
    - reflexivity.
    - lia.
    - intros j c w H. cbn [app] in H. apply String_word_plain in H; [discriminate|lia].
  Qed.

  Hypothesis HM : 2 * zlen src <= maxLen.

  Lemma prefix_split p t1 t2 : prefix s p (length (t1 ++ t2)) = t1 ++ t2 ->
    prefix s p (length t1) = t1 /\ prefix s (p + zlen t1) (length t2) = t2.
  Proof.
    intros H. rewrite app_length, prefix_app in H.
    assert (L : length (prefix s p (length t1)) = length t1) by apply prefix_length.
    assert (E1 : prefix s p (length t1) = t1).
    { apply (f_equal (firstn (length t1))) in H. rewrite firstn_app, firstn_app, L, Nat.sub_diag in H. cbn [firstn] in H.
      rewrite !app_nil_r in H. rewrite firstn_all2, firstn_all in H by lia. exact H. }
    split; [exact E1|]. rewrite E1 in H. now apply app_inv_head in H.
  Qed.

  Lemma String_accepts saved text v : denotes mosml_plain mosml_formatting text v ->
    forall p b v0, holds b v0 -> zlen v0 <= p -> 0 <= p -> p + zlen text + 1 <= zlen src ->
    prefix s p (length (text ++ [34])) = text ++ [34] ->
    exists F b', holds b' (v0 ++ v) /\
      forall fuel, (F <= fuel)%nat -> String d s fuel saved p b = Ret (Fine (p + zlen text + 1, b')).
  Proof.
    intros H. induction H as [|t v t' v' HI HD IH]; intros p b v0 HH Hv Hp HE HS.
    - rewrite app_nil_r. cbn [app length] in HS. cbn [prefix] in HS. injection HS as HS.
      destruct (string_known p 359 1 ltac:(change (zlen (@nil Z)) with 0 in HE; lia) (quote_step p HS)) as [F HC].
      exists (S F), b. split; [exact HH|]. intros fuel Hf. destruct fuel as [|fuel]; [lia|]. cbn [String].
      rewrite HC by lia. change (zlen (@nil Z)) with 0. rewrite Z.add_0_r. reflexivity.
    - rewrite <- app_assoc in HS. destruct (prefix_split _ _ _ HS) as [S1 S2].
      destruct (item_has_line _ _ HI) as [l HL]. rewrite zlen_app in HE. pose proof (zlen_nonneg t). pose proof (zlen_nonneg t').
      destruct (string_known p l (length t) ltac:(lia) (item_selected _ _ _ _ _ S1 HL)) as [F HC].
      destruct (store_all_ok _ _ _ _ _ HL HH ltac:(lia)) as (b1 & E1 & H1).
      pose proof (item_line_length _ _ _ HL) as LEN.
      destruct (IH (p + zlen t) b1 (v0 ++ v) H1) as (F2 & b2 & H2 & HR).
      + rewrite zlen_app. unfold zlen in *. lia.
      + lia.
      + lia.
      + exact S2.
      + exists (S (Nat.max F F2)), b2. rewrite app_assoc. split; [exact H2|]. intros fuel Hf. destruct fuel as [|fuel]; [lia|].
        rewrite (item_effect d s t v l saved p b fuel (p + zlen t) S1 HL) by (apply HC; lia).
        rewrite E1. cbn [bind]. rewrite HR by lia. do 3 f_equal. rewrite zlen_app. lia.
  Qed.


  Lemma String_returns saved fuel : forall p b v0 q b', holds b v0 -> zlen v0 <= p -> 0 <= p <= zlen src ->
    String d s fuel saved p b = Ret (Fine (q, b')) ->
    exists text v, prefix s p (length (text ++ [34])) = text ++ [34] /\ q = p + zlen text + 1 /\ q <= zlen src /\
      denotes mosml_plain mosml_formatting text v /\ holds b' (v0 ++ v).
  Proof.
    induction fuel as [|fuel IH]; intros p b v0 q b' HH Hv Hp HR; [discriminate|].
    destruct (string_call p Hp) as (l & n & F & HS & Hn & Hin & HC & _).
    destruct (HC fuel) as [E|E]; [cbn [String] in HR; rewrite E in HR; discriminate|].
    destruct (String_step_cases s p l n (source_bytes src HB p) HS) as [(-> & EP)|[(v & HL)|C]].
    - cbn [String] in HR. rewrite E in HR. cbn in HR. injection HR as <- <-. exists [], [].
      assert (n = 1%nat) as -> by (apply (f_equal (@length Z)) in EP; now rewrite prefix_length in EP).
      split; [exact EP|]. split; [change (zlen (@nil Z)) with 0; lia|]. split; [apply Hin; discriminate|]. split; [constructor|]. now rewrite app_nil_r.
    - set (t := prefix s p n) in *. assert (LT : length t = n) by apply prefix_length.
      assert (S1 : prefix s p (length t) = t) by now rewrite LT.
      rewrite (item_effect d s t v l saved p b fuel _ S1 HL E) in HR.
      destruct (store_all_ok _ _ _ _ _ HL HH ltac:(lia)) as (b1 & E1 & H1). rewrite E1 in HR. cbn [bind] in HR.
      pose proof (item_line_length _ _ _ HL) as LEN.
      assert (NL : l <> 389) by (destruct HL; discriminate). specialize (Hin NL).
      destruct (IH (p + Z.of_nat n) b1 (v0 ++ v) q b' H1) as (text & v' & A1 & A2 & A3 & A4 & A5); [rewrite zlen_app; unfold zlen in *; lia|lia|exact HR|].
      exists (t ++ text), (v ++ v'). rewrite zlen_app. unfold zlen at 1. rewrite LT. split.
      + rewrite <- !app_assoc. rewrite app_length, prefix_app, S1, LT, A1. reflexivity.
      + split; [lia|]. split; [exact A3|]. split; [|now rewrite app_assoc]. constructor; [|exact A4].
        destruct HL; econstructor; eassumption.
    - exfalso. cbn [String] in HR. rewrite E in HR. cbn [bind] in HR.
      destruct C as [(-> & C)|[(-> & C)|[-> |[-> |[-> | ->]]]]]; cbn [Z.eqb Pos.eqb] in HR.
      + replace (charCodeOfDecimal s p 1 >=? 256) with true in HR by lia. now apply skipString_error in HR.
      + replace (charCodeOfHexadecimal s p 1 >=? 256) with true in HR by lia. now apply skipString_error in HR.
      + now apply skipString_error in HR.
      + discriminate.
      + now apply skipString_error in HR.
      + now apply skipString_error in HR.
  Qed.

  Lemma String_total saved : forall p b v0, holds b v0 -> zlen v0 <= p -> 0 <= p <= zlen src ->
    exists F r, forall fuel, (F <= fuel)%nat -> String d s fuel saved p b = Ret r.
  Proof.
    intros p. remember (Z.to_nat (zlen src - p)) as k eqn:Ek. revert p Ek.
    induction k as [k IH] using lt_wf_ind. intros p Ek b v0 HH Hv Hp.
    destruct (string_call p Hp) as (l & n & F & HS & Hn & Hin & _ & HC).
    assert (SK : forall m, l <> 389 -> exists F2 r, forall fuel, (F2 <= fuel)%nat ->
               @skipString d s (Z * sbuf) fuel m saved p (p + Z.of_nat n) = Ret r).
    { intros m N. destruct (@skipString_total (Z * sbuf) m saved p (p + Z.of_nat n)) as (F2 & m' & p1 & p2 & H2); [specialize (Hin N); lia|]. eauto. }
    destruct (String_step_cases s p l n (source_bytes src HB p) HS) as [(-> & EP)|[(v & HL)|C]].
    - exists (S F), (Fine (p + Z.of_nat n, b)). intros fuel Hf. destruct fuel as [|fuel]; [lia|]. cbn [String]. rewrite HC by lia. reflexivity.
    - set (t := prefix s p n) in *. assert (LT : length t = n) by apply prefix_length.
      assert (S1 : prefix s p (length t) = t) by now rewrite LT.
      destruct (store_all_ok _ _ _ _ _ HL HH ltac:(lia)) as (b1 & E1 & H1).
      pose proof (item_line_length _ _ _ HL) as LEN.
      assert (NL : l <> 389) by (destruct HL; discriminate). specialize (Hin NL).
      destruct (IH (Z.to_nat (zlen src - (p + Z.of_nat n))) ltac:(lia) (p + Z.of_nat n) eq_refl b1 (v0 ++ v) H1) as (F2 & r & HR);
        [rewrite zlen_app; unfold zlen in *; lia|lia|].
      exists (S (Nat.max F F2)), r. intros fuel Hf. destruct fuel as [|fuel]; [lia|].
      rewrite (item_effect d s t v l saved p b fuel _ S1 HL (HC fuel ltac:(lia))), E1. cbn [bind]. apply HR. lia.
    - destruct C as [(-> & C)|[(-> & C)|[-> |[-> |[-> | ->]]]]].
      + destruct (SK CodeTooLarge ltac:(discriminate)) as (F2 & r & H2). exists (S (Nat.max F F2)), r. intros fuel Hf.
        destruct fuel as [|fuel]; [lia|]. cbn [String]. rewrite HC by lia. cbn [bind Z.eqb Pos.eqb].
        replace (charCodeOfDecimal s p 1 >=? 256) with true by lia. apply H2. lia.
      + destruct (SK CodeTooLarge ltac:(discriminate)) as (F2 & r & H2). exists (S (Nat.max F F2)), r. intros fuel Hf.
        destruct fuel as [|fuel]; [lia|]. cbn [String]. rewrite HC by lia. cbn [bind Z.eqb Pos.eqb].
        replace (charCodeOfHexadecimal s p 1 >=? 256) with true by lia. apply H2. lia.
      + destruct (SK IllFormedEscape ltac:(discriminate)) as (F2 & r & H2). exists (S (Nat.max F F2)), r. intros fuel Hf.
        destruct fuel as [|fuel]; [lia|]. cbn [String]. rewrite HC by lia. apply H2. lia.
      + exists (S F), (Error StringNotTerminated saved (p + Z.of_nat n)). intros fuel Hf. destruct fuel as [|fuel]; [lia|].
        cbn [String]. rewrite HC by lia. reflexivity.
      + destruct (SK NewlineInString ltac:(discriminate)) as (F2 & r & H2). exists (S (Nat.max F F2)), r. intros fuel Hf.
        destruct fuel as [|fuel]; [lia|]. cbn [String]. rewrite HC by lia. apply H2. lia.
      + destruct (SK InvalidCharacter ltac:(discriminate)) as (F2 & r & H2). exists (S (Nat.max F F2)), r. intros fuel Hf.
        destruct fuel as [|fuel]; [lia|]. cbn [String]. rewrite HC by lia. apply H2. lia.
  Qed.
End Loops.
