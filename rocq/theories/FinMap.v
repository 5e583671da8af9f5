(** Specification of finite maps / sets ordered by an SML comparison function, and
    facts about strictly increasing lists used by all search tree models.

    Entries have type [E] and carry a key [key e : K].  For maps E = K * V and key = fst;
    for sets E = K and key = identity.  Keys are identified up to EQUAL. *)
From Coq Require Import Sorting.Sorted Sorting.Permutation.
From Verif Require Import Base OrderSpec.

Section Spec.
Context {K E : Type} (key : E -> K) (c : K -> K -> comparison).

(** *** The abstract finite map: a list of entries without EQUAL keys, order irrelevant *)

Definition same_key (k : K) (e : E) : bool :=
  match c k (key e) with Eq => true | _ => false end.

(** the entry for [k], if any *)
Definition am_find (k : K) (m : list E) : option E := find (same_key k) m.
(** remove the entry for [k] *)
Definition am_remove (k : K) (m : list E) : list E := filter (fun e => negb (same_key k e)) m.
(** bind (the key of) [e] to [e], replacing a previous entry *)
Definition am_insert (e : E) (m : list E) : list E := e :: am_remove (key e) m.
(** add [e] unless there is an entry with the same key *)
Definition am_add (e : E) (m : list E) : list E :=
  match am_find (key e) m with Some _ => m | None => e :: m end.

Definition distinct_keys (m : list E) : Prop :=
  ForallOrdPairs (fun e1 e2 => c (key e1) (key e2) <> Eq) m.

(** [l] is the listing of the map [m] in increasing key order *)
Definition lists (l m : list E) : Prop :=
  StronglySorted (fun e1 e2 => c (key e1) (key e2) = Lt) l /\ Permutation l m.

End Spec.

Section Facts.
Context {K E : Type} (key : E -> K) (c : K -> K -> comparison) (TP : total_preorder c).
Notation lt e1 e2 := (c (key e1) (key e2) = Lt).
Notation sorted := (StronglySorted (fun e1 e2 => c (key e1) (key e2) = Lt)).

(** lookup, insertion and deletion on sorted lists *)
Fixpoint slookup (k : K) (l : list E) : option E :=
  match l with
  | [] => None
  | e :: r => match c k (key e) with Eq => Some e | Lt => None | Gt => slookup k r end
  end.
Fixpoint sins (e : E) (l : list E) : list E :=
  match l with
  | [] => [e]
  | e' :: r =>
    match c (key e) (key e') with Eq => e :: r | Lt => e :: l | Gt => e' :: sins e r end
  end.
Fixpoint sdel (k : K) (l : list E) : list E :=
  match l with
  | [] => []
  | e :: r => match c k (key e) with Eq => r | Lt => l | Gt => e :: sdel k r end
  end.

Definition klt (l : list E) (k : K) := Forall (fun e => c (key e) k = Lt) l.
Definition kgt (k : K) (l : list E) := Forall (fun e => c k (key e) = Lt) l.

Lemma sorted_app l1 e l2 :
  sorted (l1 ++ e :: l2) <-> sorted l1 /\ sorted l2 /\ klt l1 (key e) /\ kgt (key e) l2.
Proof.
  induction l1 as [|a l1 IH]; cbn [app].
  - split.
    + intros H. inversion H; subst. repeat split; auto; constructor.
    + intros (_ & H1 & _ & H2). constructor; auto.
  - split.
    + intros H. inversion H as [|? ? H1 H2]; subst. apply IH in H1 as (S1 & S2 & L & G).
      apply Forall_app in H2 as [F1 F2]. inversion F2; subst.
      repeat split; auto; constructor; auto.
    + intros (S1 & S2 & L & G). inversion S1; inversion L; subst.
      constructor; [apply IH; auto|].
      apply Forall_app. split; [assumption|]. constructor; [assumption|].
      eapply Forall_impl; [|exact G]. cbn. intros b Hb.
      eapply tp_lt_le_trans; eauto using tp_lt_le.
Qed.

Lemma klt_trans l k k' : klt l k -> c k k' = Lt -> klt l k'.
Proof. intros H Hk. eapply Forall_impl; [|exact H]. cbn. intros. eapply tp_lt_le_trans; eauto using tp_lt_le. Qed.
Lemma kgt_trans l k k' : kgt k l -> c k' k = Lt -> kgt k' l.
Proof. intros H Hk. eapply Forall_impl; [|exact H]. cbn. intros. eapply tp_lt_le_trans; eauto using tp_lt_le. Qed.
Lemma klt_le_trans l k k' : klt l k -> c k k' <> Gt -> klt l k'.
Proof. intros H Hk. eapply Forall_impl; [|exact H]. cbn. intros. eapply tp_lt_le_trans; eauto. Qed.
Lemma kgt_le_trans l k k' : kgt k l -> c k' k <> Gt -> kgt k' l.
Proof. intros H Hk. eapply Forall_impl; [|exact H]. cbn. intros. eapply tp_le_lt_trans; eauto. Qed.

Lemma slookup_kgt k l : kgt k l -> slookup k l = None.
Proof. destruct l as [|e l]; intros H; [reflexivity|]. inversion H; subst. cbn. now rewrite H2. Qed.
Lemma slookup_klt k l l2 : klt l k -> slookup k (l ++ l2) = slookup k l2.
Proof.
  induction l as [|e l IH]; intros H; [reflexivity|]. inversion H; subst. cbn.
  rewrite (tp_sym c TP (key e) k), H2. cbn. auto.
Qed.

Lemma slookup_app k l1 e l2 : sorted (l1 ++ e :: l2) ->
  slookup k (l1 ++ e :: l2) =
  match c k (key e) with Lt => slookup k l1 | Eq => Some e | Gt => slookup k l2 end.
Proof.
  intros H. apply sorted_app in H as (S1 & S2 & L & G).
  destruct (c k (key e)) eqn:Ek.
  - rewrite slookup_klt. { cbn. now rewrite Ek. }
    eapply klt_le_trans; [exact L|]. rewrite (tp_sym c TP k (key e)), Ek. discriminate.
  - clear L S1. induction l1 as [|a l1 IH]; cbn; [now rewrite Ek|]. 
    destruct (c k (key a)); auto.
  - rewrite slookup_klt. { cbn. now rewrite Ek. }
    eapply klt_trans; [exact L|]. now apply tp_gt_lt.
Qed.

Lemma sins_klt e l l2 : klt l (key e) -> sins e (l ++ l2) = l ++ sins e l2.
Proof.
  induction l as [|a l IH]; intros H; [reflexivity|]. inversion H; subst. cbn.
  rewrite (tp_sym c TP (key a) (key e)), H2. cbn. now rewrite IH.
Qed.

Lemma sins_app e l1 e' l2 : sorted (l1 ++ e' :: l2) ->
  sins e (l1 ++ e' :: l2) =
  match c (key e) (key e') with
  | Lt => sins e l1 ++ e' :: l2 | Eq => l1 ++ e :: l2 | Gt => l1 ++ e' :: sins e l2 end.
Proof.
  intros H. apply sorted_app in H as (S1 & S2 & L & G).
  destruct (c (key e) (key e')) eqn:Ek.
  - rewrite sins_klt. { cbn. now rewrite Ek. }
    eapply klt_le_trans; [exact L|]. rewrite (tp_sym c TP (key e) (key e')), Ek. discriminate.
  - clear L S1. induction l1 as [|a l1 IH]; cbn; [now rewrite Ek|].
    destruct (c (key e) (key a)); cbn; [reflexivity|reflexivity|]. now rewrite IH.
  - rewrite sins_klt. { cbn. now rewrite Ek. }
    eapply klt_trans; [exact L|]. now apply tp_gt_lt.
Qed.

Lemma sdel_klt k l l2 : klt l k -> sdel k (l ++ l2) = l ++ sdel k l2.
Proof.
  induction l as [|a l IH]; intros H; [reflexivity|]. inversion H; subst. cbn.
  rewrite (tp_sym c TP (key a) k), H2. cbn. now rewrite IH.
Qed.
Lemma sdel_kgt k l : kgt k l -> sdel k l = l.
Proof. destruct l as [|e l]; intros H; [reflexivity|]. inversion H; subst. cbn. now rewrite H2. Qed.

Lemma sdel_app k l1 e' l2 : sorted (l1 ++ e' :: l2) ->
  sdel k (l1 ++ e' :: l2) =
  match c k (key e') with
  | Lt => sdel k l1 ++ e' :: l2 | Eq => l1 ++ l2 | Gt => l1 ++ e' :: sdel k l2 end.
Proof.
  intros H. apply sorted_app in H as (S1 & S2 & L & G).
  destruct (c k (key e')) eqn:Ek.
  - rewrite sdel_klt. { cbn. now rewrite Ek. }
    eapply klt_le_trans; [exact L|]. rewrite (tp_sym c TP k (key e')), Ek. discriminate.
  - clear L S1. induction l1 as [|a l1 IH]; cbn; [now rewrite Ek|].
    destruct (c k (key a)); cbn; [reflexivity|reflexivity|]. now rewrite IH.
  - rewrite sdel_klt. { cbn. now rewrite Ek. }
    eapply klt_trans; [exact L|]. now apply tp_gt_lt.
Qed.

Lemma sdel_notin k l : sorted l -> slookup k l = None -> sdel k l = l.
Proof.
  induction l as [|e l IH]; intros S H; [reflexivity|]. cbn in *. inversion S; subst.
  destruct (c k (key e)); [discriminate|reflexivity|]. now rewrite IH.
Qed.

(** *** preservation of sortedness and agreement with the abstract map *)

Lemma sins_Forall (P : E -> Prop) e l : P e -> Forall P l -> Forall P (sins e l).
Proof.
  intros He. induction 1 as [|a l Ha Hl IH]; cbn; [auto|].
  destruct (c (key e) (key a)); auto.
Qed.
Lemma sdel_Forall (P : E -> Prop) k l : Forall P l -> Forall P (sdel k l).
Proof.
  induction 1 as [|a l Ha Hl IH]; cbn; [auto|]. destruct (c k (key a)); auto.
Qed.

Lemma sins_sorted e l : sorted l -> sorted (sins e l).
Proof.
  induction l as [|a l IH]; intros H; cbn; [repeat constructor|].
  inversion H; subst. destruct (c (key e) (key a)) eqn:Ek.
  - constructor; [assumption|]. apply (kgt_le_trans l (key a)); [assumption|congruence].
  - constructor; [assumption|]. constructor; [assumption|].
    apply (kgt_trans l (key a)); assumption.
  - constructor; [auto|]. apply sins_Forall; [|assumption]. now apply tp_gt_lt.
Qed.

Lemma sdel_sorted k l : sorted l -> sorted (sdel k l).
Proof.
  induction l as [|a l IH]; intros H; cbn; [constructor|].
  inversion H; subst. destruct (c k (key a)) eqn:Ek; auto.
  constructor; [auto|]. now apply sdel_Forall.
Qed.

Lemma same_key_klt k l : klt l k -> filter (fun e => negb (same_key key c k e)) l = l.
Proof.
  induction 1 as [|a l Ha Hl IH]; cbn; [reflexivity|]. unfold same_key at 1.
  rewrite (tp_sym c TP (key a) k), Ha. cbn. now rewrite IH.
Qed.
Lemma same_key_kgt k l : kgt k l -> filter (fun e => negb (same_key key c k e)) l = l.
Proof.
  induction 1 as [|a l Ha Hl IH]; cbn; [reflexivity|]. unfold same_key at 1.
  rewrite Ha. cbn. now rewrite IH.
Qed.

Lemma sdel_remove k l : sorted l -> sdel k l = am_remove key c k l.
Proof.
  unfold am_remove. induction l as [|a l IH]; intros H; cbn; [reflexivity|].
  inversion H; subst. unfold same_key at 1. destruct (c k (key a)) eqn:Ek; cbn.
  - symmetry. apply same_key_kgt. apply (kgt_le_trans l (key a)); [assumption|congruence].
  - f_equal. symmetry. apply same_key_kgt. apply (kgt_trans l (key a)); assumption.
  - now rewrite IH.
Qed.

Lemma sins_insert e l : sorted l -> Permutation (sins e l) (am_insert key c e l).
Proof.
  intros H. unfold am_insert. rewrite <- sdel_remove by assumption.
  clear H. induction l as [|a l IH]; cbn; [reflexivity|].
  destruct (c (key e) (key a)); [reflexivity|reflexivity|].
  etransitivity; [apply perm_skip, IH|]. constructor.
Qed.

Lemma slookup_find k l : sorted l -> slookup k l = am_find key c k l.
Proof.
  unfold am_find. induction l as [|a l IH]; intros H; cbn; [reflexivity|].
  inversion H; subst. unfold same_key at 1. destruct (c k (key a)) eqn:Ek; auto.
  rewrite <- IH by assumption. symmetry. apply slookup_kgt. apply (kgt_trans l (key a)); assumption.
Qed.

(** the abstract operations do not depend on the order of the entries *)
Lemma filter_Permutation {B} (f : B -> bool) l l' : Permutation l l' -> Permutation (filter f l) (filter f l').
Proof.
  induction 1; cbn; auto.
  - destruct (f x); auto.
  - destruct (f x), (f y); auto. constructor.
  - etransitivity; eauto.
Qed.
Lemma am_remove_perm k m m' : Permutation m m' -> Permutation (am_remove key c k m) (am_remove key c k m').
Proof. apply filter_Permutation. Qed.
Lemma am_insert_perm e m m' : Permutation m m' -> Permutation (am_insert key c e m) (am_insert key c e m').
Proof. intros. apply perm_skip. now apply am_remove_perm. Qed.

Lemma same_key_unique m e1 e2 k : distinct_keys key c m -> In e1 m -> In e2 m ->
  c k (key e1) = Eq -> c k (key e2) = Eq -> e1 = e2.
Proof.
  intros D. induction D as [|a m Ha D IH]; intros H1 H2 E1 E2; [destruct H1|].
  rewrite Forall_forall in Ha.
  destruct H1 as [->|H1], H2 as [->|H2]; auto.
  - exfalso. apply (Ha _ H2). eapply tp_eq_trans; eauto. now apply tp_eq_sym.
  - exfalso. apply (Ha _ H1). eapply tp_eq_trans; eauto. now apply tp_eq_sym.
Qed.

Lemma am_find_Some k m e : am_find key c k m = Some e -> In e m /\ c k (key e) = Eq.
Proof.
  unfold am_find. intros H. apply find_some in H as [H1 H2]. split; [assumption|].
  unfold same_key in H2. destruct (c k (key e)); congruence.
Qed.
Lemma am_find_None k m : am_find key c k m = None <-> forall e, In e m -> c k (key e) <> Eq.
Proof.
  unfold am_find. split.
  - intros H e He Ek. pose proof (find_none _ _ H e He) as Hn. unfold same_key in Hn.
    now rewrite Ek in Hn.
  - intros H. destruct (find (same_key key c k) m) as [e|] eqn:F; [|reflexivity].
    apply find_some in F as [F1 F2]. exfalso. apply (H e F1). unfold same_key in F2.
    destruct (c k (key e)); congruence.
Qed.
Lemma am_remove_absent k m : am_find key c k m = None -> am_remove key c k m = m.
Proof.
  rewrite am_find_None. unfold am_remove. induction m as [|e m IH]; intros HN; [reflexivity|].
  cbn. unfold same_key at 1.
  destruct (c k (key e)) eqn:E0; [exfalso; apply (HN e); [now left|assumption]| |]; cbn;
    (rewrite IH; [reflexivity|]); intros e' He'; apply HN; now right.
Qed.
Lemma am_find_In k m e : distinct_keys key c m -> In e m -> c k (key e) = Eq -> am_find key c k m = Some e.
Proof.
  intros D He Ek. destruct (am_find key c k m) as [e'|] eqn:F.
  - apply am_find_Some in F as [F1 F2]. f_equal. eapply same_key_unique; eauto.
  - exfalso. eapply (proj1 (am_find_None k m)); eauto.
Qed.

Lemma distinct_perm m m' : Permutation m m' -> distinct_keys key c m -> distinct_keys key c m'.
Proof.
  unfold distinct_keys. induction 1 as [|a l l' HP IH|a b l|l l' l'' HP1 IH1 HP2 IH2]; intros D; auto.
  - inversion D; subst. constructor; [|auto]. eapply Permutation_Forall; eassumption.
  - inversion D as [|? ? D1 D2]; subst. inversion D1; subst. inversion D2 as [|? ? D3 D4]; subst.
    constructor; [constructor; [|assumption]|constructor; assumption].
    rewrite (tp_sym c TP (key b) (key a)). destruct (c (key b) (key a)); cbn; congruence.
Qed.

Lemma am_find_perm k m m' : distinct_keys key c m -> Permutation m m' ->
  am_find key c k m = am_find key c k m'.
Proof.
  intros D HP. destruct (am_find key c k m') as [e|] eqn:F.
  - apply am_find_Some in F as [F1 F2]. apply am_find_In; auto.
    eapply Permutation_in; [apply Permutation_sym; eassumption|assumption].
  - apply am_find_None. intros e He. eapply (proj1 (am_find_None k m')); eauto.
    eapply Permutation_in; eassumption.
Qed.

Lemma sorted_distinct l : sorted l -> distinct_keys key c l.
Proof.
  induction 1 as [|a l S IH F]; [constructor|]. constructor; [|assumption].
  eapply Forall_impl; [|exact F]. cbn. congruence.
Qed.

Lemma lists_distinct l m : lists key c l m -> distinct_keys key c m.
Proof. intros [S P]. eapply distinct_perm; [exact P|]. now apply sorted_distinct. Qed.

(** the listing determines all observations *)
Lemma lists_find k l m : lists key c l m -> slookup k l = am_find key c k m.
Proof.
  intros [S P]. rewrite slookup_find by assumption. apply am_find_perm; auto using sorted_distinct.
Qed.
Lemma lists_insert e l m : lists key c l m -> lists key c (sins e l) (am_insert key c e m).
Proof.
  intros [S P]. split; [now apply sins_sorted|].
  etransitivity; [now apply sins_insert|]. now apply am_insert_perm.
Qed.
Lemma lists_remove k l m : lists key c l m -> lists key c (sdel k l) (am_remove key c k m).
Proof.
  intros [S P]. split; [now apply sdel_sorted|]. rewrite sdel_remove by assumption. now apply am_remove_perm.
Qed.
Lemma lists_length l m : lists key c l m -> length l = length m.
Proof. intros [_ P]. now apply Permutation_length. Qed.

(** an increasing listing is unique *)
Lemma sorted_unique l l' : sorted l -> sorted l' -> Permutation l l' -> l = l'.
Proof.
  revert l'. induction l as [|a l IH]; intros l' S S' P.
  - apply Permutation_nil in P. now subst.
  - destruct l' as [|b l']; [apply Permutation_sym, Permutation_nil in P; discriminate|].
    inversion S as [|? ? S1 F1]; inversion S' as [|? ? S1' F1']; subst.
    assert (a = b) as ->.
    { assert (Ia : In a (b :: l')) by (eapply Permutation_in; [exact P|now left]).
      assert (Ib : In b (a :: l)) by (eapply Permutation_in; [apply Permutation_sym, P|now left]).
      destruct Ia as [|Ia]; [auto|]. destruct Ib as [|Ib]; [auto|].
      rewrite Forall_forall in F1, F1'. specialize (F1 b Ib). specialize (F1' a Ia). cbn in *.
      rewrite (tp_sym c TP (key a) (key b)), F1 in F1'. discriminate. }
    f_equal. apply IH; auto. now apply Permutation_cons_inv in P.
Qed.

Lemma sins_length_new e l : slookup (key e) l = None -> sorted l -> length (sins e l) = S (length l).
Proof.
  induction l as [|a l IH]; cbn; intros H HS; [reflexivity|].
  inversion HS; subst. destruct (c (key e) (key a)) eqn:Ek; cbn; [discriminate|reflexivity|].
  now rewrite IH.
Qed.
Lemma sins_length_old e l e' : slookup (key e) l = Some e' -> length (sins e l) = length l.
Proof.
  induction l as [|a l IH]; cbn; intros H; [discriminate|].
  destruct (c (key e) (key a)) eqn:Ek; cbn; [reflexivity|discriminate|]. now rewrite IH.
Qed.
Lemma sdel_length k l e : slookup k l = Some e -> length l = S (length (sdel k l)).
Proof.
  induction l as [|a l IH]; cbn; intros H; [discriminate|].
  destruct (c k (key a)) eqn:Ek; cbn; [reflexivity|discriminate|]. now rewrite IH.
Qed.

Lemma kgt_app k l1 l2 : kgt k (l1 ++ l2) <-> kgt k l1 /\ kgt k l2.
Proof. apply Forall_app. Qed.
Lemma klt_app k l1 l2 : klt (l1 ++ l2) k <-> klt l1 k /\ klt l2 k.
Proof. apply Forall_app. Qed.
End Facts.
