(** * Unification: labels, cells, trees *)

From Coq Require Import ZArith List Bool Permutation Sorted Lia Arith.
From Verif Require Import Unify_Model Unify_Spec.
Import ListNotations.
Open Scope Z_scope.

(** ** Labels *)

Lemma lt_str_irrefl a : lt_str a a = false.
Proof. induction a as [|x a IH]; cbn; [reflexivity|]. rewrite Z.ltb_irrefl. exact IH. Qed.

Lemma lt_str_trans a : forall b c, lt_str a b = true -> lt_str b c = true -> lt_str a c = true.
Proof.
  induction a as [|x a IH]; intros [|y b] [|z c] H1 H2; cbn in *; try congruence.
  destruct (x <? y) eqn:E1, (y <? z) eqn:E2; rewrite ?Z.ltb_lt, ?Z.ltb_ge in *.
  - destruct (x <? z) eqn:E; [reflexivity|]. apply Z.ltb_ge in E. lia.
  - destruct (z <? y) eqn:E3; [discriminate|]. apply Z.ltb_ge in E3.
    destruct (x <? z) eqn:E; [reflexivity|]. apply Z.ltb_ge in E. lia.
  - destruct (y <? x) eqn:E3; [discriminate|]. apply Z.ltb_ge in E3.
    destruct (x <? z) eqn:E; [reflexivity|]. apply Z.ltb_ge in E. lia.
  - destruct (y <? x) eqn:E3; [discriminate|]. destruct (z <? y) eqn:E4; [discriminate|].
    apply Z.ltb_ge in E3, E4.
    destruct (x <? z) eqn:E; [reflexivity|]. apply Z.ltb_ge in E.
    destruct (z <? x) eqn:E5; [apply Z.ltb_lt in E5; lia|]. eauto.
Qed.

Lemma lt_str_total a : forall b, lt_str a b = false -> lt_str b a = false -> a = b.
Proof.
  induction a as [|x a IH]; intros [|y b] H1 H2; cbn in *; try congruence.
  destruct (x <? y) eqn:E1; [discriminate|].
  destruct (y <? x) eqn:E2; [discriminate|].
  apply Z.ltb_ge in E1, E2. f_equal; [lia|eauto].
Qed.

Lemma lt_irrefl a : lt_lab a a = false.
Proof. destruct a; cbn; [apply lt_str_irrefl|apply Z.ltb_irrefl]. Qed.

Lemma lt_trans a b c : lt_lab a b = true -> lt_lab b c = true -> lt_lab a c = true.
Proof.
  destruct a, b, c; cbn; try congruence; [apply lt_str_trans|].
  rewrite !Z.ltb_lt. lia.
Qed.

Lemma lt_total a b : lt_lab a b = false -> lt_lab b a = false -> a = b.
Proof.
  destruct a, b; cbn; try congruence.
  - intros A B. f_equal. exact (lt_str_total _ _ A B).
  - rewrite !Z.ltb_ge. intros. f_equal. lia.
Qed.

Lemma lab_dec (a b : lab) : {a = b} + {a <> b}.
Proof. decide equality; [apply (list_eq_dec Z.eq_dec)|apply Z.eq_dec]. Qed.

(** ** Sorted fields *)

Lemma sorted_inv {A} (x : lab * A) l : sorted (x :: l) ->
  sorted l /\ forall y, In y l -> lt_lab (fst x) (fst y) = true.
Proof. intros H. apply StronglySorted_inv in H as [A1 B]. split; [exact A1|]. apply Forall_forall, B. Qed.

Lemma sorted_cons {A} (x : lab * A) l : sorted l ->
  (forall y, In y l -> lt_lab (fst x) (fst y) = true) -> sorted (x :: l).
Proof. intros H K. constructor; [exact H|]. apply Forall_forall, K. Qed.

Lemma sorted_nil {A} : sorted (@nil (lab * A)).
Proof. constructor. Qed.

Lemma sorted_one {A} (x : lab * A) : sorted [x].
Proof. apply sorted_cons; [constructor|intros y []]. Qed.

Lemma in_labels {A} l (x : A) fs : In (l, x) fs -> In l (labels fs).
Proof. intros H. apply (in_map fst) in H. exact H. Qed.

Lemma labels_in {A} l (fs : list (lab * A)) : In l (labels fs) -> exists x, In (l, x) fs.
Proof. intros H. apply in_map_iff in H as [[l' x] [E H]]. cbn in E. subst. eauto. Qed.

Lemma sorted_lt {A} l x (fs : list (lab * A)) : sorted ((l, x) :: fs) ->
  forall l', In l' (labels fs) -> lt_lab l l' = true.
Proof. intros H l' K. apply labels_in in K as [y K]. apply sorted_inv in H as [_ H]. exact (H _ K). Qed.

Lemma sorted_nodup {A} (l : list (lab * A)) : sorted l -> NoDup (labels l).
Proof.
  induction l as [|[x a] l IH]; intros H; cbn; [constructor|].
  constructor; [|apply IH, (sorted_inv _ _ H)].
  intros K. pose proof (sorted_lt _ _ _ H _ K) as E. rewrite lt_irrefl in E. discriminate.
Qed.

Lemma sorted_perm {A} (l1 : list (lab * A)) : forall l2,
  sorted l1 -> sorted l2 -> Permutation l1 l2 -> l1 = l2.
Proof.
  induction l1 as [|[x a] l1 IH]; intros l2 S1 S2 P.
  - apply Permutation_nil in P. congruence.
  - destruct l2 as [|[y b] l2]; [apply Permutation_sym, Permutation_nil in P; discriminate|].
    assert (E : (x, a) = (y, b)).
    { assert (I1 : In (x, a) ((y, b) :: l2)) by (apply (Permutation_in _ P); left; reflexivity).
      assert (I2 : In (y, b) ((x, a) :: l1))
        by (apply (Permutation_in _ (Permutation_sym P)); left; reflexivity).
      destruct I1 as [E|I1]; [congruence|]. destruct I2 as [E|I2]; [congruence|].
      pose proof (proj2 (sorted_inv _ _ S1) _ I2) as L1.
      pose proof (proj2 (sorted_inv _ _ S2) _ I1) as L2. cbn in L1, L2.
      pose proof (lt_trans _ _ _ L1 L2) as L3. rewrite lt_irrefl in L3. discriminate. }
    rewrite E in *. f_equal. apply IH; [apply (sorted_inv _ _ S1)|apply (sorted_inv _ _ S2)|].
    exact (Permutation_cons_inv P).
Qed.

Fixpoint ins {A} (x : lab * A) (l : list (lab * A)) :=
  match l with
  | [] => [x]
  | y :: l' => if lt_lab (fst x) (fst y) then x :: l else y :: ins x l'
  end.

Definition sortL {A} (l : list (lab * A)) := fold_right ins [] l.

Lemma ins_perm {A} (x : lab * A) l : Permutation (x :: l) (ins x l).
Proof.
  induction l as [|y l IH]; cbn; [reflexivity|].
  destruct (lt_lab (fst x) (fst y)); [reflexivity|].
  transitivity (y :: x :: l); [apply perm_swap|]. apply perm_skip, IH.
Qed.

Lemma sortL_perm {A} (l : list (lab * A)) : Permutation l (sortL l).
Proof.
  induction l as [|x l IH]; cbn; [reflexivity|].
  transitivity (x :: sortL l); [apply perm_skip, IH|apply ins_perm].
Qed.

Lemma labels_perm {A} (l1 l2 : list (lab * A)) : Permutation l1 l2 -> Permutation (labels l1) (labels l2).
Proof. apply Permutation_map. Qed.

Lemma ins_sorted {A} (x : lab * A) l : sorted l -> ~ In (fst x) (labels l) -> sorted (ins x l).
Proof.
  induction l as [|y l IH]; intros S N; cbn; [apply sorted_one|].
  destruct (lt_lab (fst x) (fst y)) eqn:E.
  - apply sorted_cons; [exact S|]. intros z [<-|I]; [exact E|].
    eapply lt_trans; [exact E|]. exact (proj2 (sorted_inv _ _ S) _ I).
  - apply sorted_inv in S as [S K]. apply sorted_cons.
    + apply IH; [exact S|]. intros I. apply N. right. exact I.
    + intros z I. apply (Permutation_in _ (Permutation_sym (ins_perm x l))) in I as [<-|I]; [|exact (K _ I)].
      destruct (lt_lab (fst y) (fst x)) eqn:E2; [reflexivity|].
      exfalso. apply N. left. symmetry. exact (lt_total _ _ E E2).
Qed.

Lemma sortL_sorted {A} (l : list (lab * A)) : NoDup (labels l) -> sorted (sortL l).
Proof.
  induction l as [|x l IH]; intros N; cbn; [apply sorted_nil|].
  inversion N; subst. apply ins_sorted; [apply IH; assumption|].
  intros I. apply (Permutation_in _ (Permutation_sym (labels_perm _ _ (sortL_perm l)))) in I. auto.
Qed.

Lemma insertField_spec {A} (x : lab * A) l : forall l', insertField x l = Some l' -> sorted l ->
  sorted l' /\ Permutation (x :: l) l'.
Proof.
  induction l as [|[y b] l IH]; intros l' E S; cbn in E.
  - injection E as <-. split; [apply sorted_one|reflexivity].
  - destruct (lt_lab (fst x) y) eqn:E1.
    + injection E as <-. split; [|reflexivity]. apply sorted_cons; [exact S|].
      intros z [<-|I]; [exact E1|]. eapply lt_trans; [exact E1|]. exact (proj2 (sorted_inv _ _ S) _ I).
    + destruct (lt_lab y (fst x)) eqn:E2; [|discriminate].
      destruct (insertField x l) as [l1|] eqn:E3; [|discriminate]. injection E as <-.
      destruct (IH _ eq_refl (proj1 (sorted_inv _ _ S))) as [S1 P1]. split.
      * apply sorted_cons; [exact S1|]. intros z I.
        apply (Permutation_in _ (Permutation_sym P1)) in I as [<-|I]; [exact E2|].
        exact (proj2 (sorted_inv _ _ S) _ I).
      * transitivity ((y, b) :: x :: l); [apply perm_swap|]. apply perm_skip, P1.
Qed.

Lemma Join_fun fs m l1 l2 : Join fs m l1 -> Join fs m l2 -> l1 = l2.
Proof.
  intros [S1 P1] [S2 P2]. apply sorted_perm; [assumption..|].
  transitivity (fs ++ m); [symmetry; assumption|assumption].
Qed.

Lemma Join_nodup fs m l : Join fs m l -> NoDup (labels (fs ++ m)).
Proof.
  intros [S P]. eapply Permutation_NoDup; [apply Permutation_sym, labels_perm, P|]. apply sorted_nodup, S.
Qed.

(** Two permuted sets of fields with the same label in front. *)
Lemma perm_same {A} l (x y : A) a b : NoDup (labels ((l, x) :: a)) ->
  Permutation ((l, x) :: a) ((l, y) :: b) -> x = y /\ Permutation a b.
Proof.
  intros N P.
  assert (I : In (l, y) ((l, x) :: a)) by (apply (Permutation_in _ (Permutation_sym P)); left; reflexivity).
  destruct I as [E|I].
  - injection E as <-. split; [reflexivity|]. exact (Permutation_cons_inv P).
  - exfalso. inversion N; subst. apply H1. exact (in_labels _ _ _ I).
Qed.

(** ** Cells *)

Lemma set_nth_len {A} (l : list A) i x : length (set_nth l i x) = length l.
Proof. revert i; induction l as [|y l IH]; intros [|i]; cbn; auto. Qed.

Lemma set_nth_same {A} (l : list A) i x : (i < length l)%nat -> nth_error (set_nth l i x) i = Some x.
Proof.
  revert i; induction l as [|y l IH]; intros [|i] H; cbn in *; try lia; [reflexivity|]. apply IH. lia.
Qed.

Lemma set_nth_other {A} (l : list A) i j x : i <> j -> nth_error (set_nth l i x) j = nth_error l j.
Proof.
  revert i j; induction l as [|y l IH]; intros [|i] [|j] H; cbn; try reflexivity; try lia.
  apply IH. lia.
Qed.

Lemma nth_lt {A} (l : list A) i x : nth_error l i = Some x -> (i < length l)%nat.
Proof. intros H. apply nth_error_Some. congruence. Qed.

Lemma nth_ex {A} (l : list A) i : (i < length l)%nat -> exists x, nth_error l i = Some x.
Proof. intros H. destruct (nth_error l i) eqn:E; [eauto|]. apply nth_error_None in E. lia. Qed.

Lemma set_nth_inv {A} (l : list A) i x j y : nth_error (set_nth l i x) j = Some y ->
  (j = i /\ y = x /\ (i < length l)%nat) \/ (j <> i /\ nth_error l j = Some y).
Proof.
  destruct (Nat.eq_dec j i) as [->|N].
  - intros H. pose proof (nth_lt _ _ _ H) as B. rewrite set_nth_len in B.
    rewrite set_nth_same in H by exact B. left. injection H as <-. auto.
  - rewrite set_nth_other by auto. auto.
Qed.

Lemma nth_snoc {A} (l : list A) x j y : nth_error (l ++ [x]) j = Some y ->
  nth_error l j = Some y \/ (j = length l /\ y = x).
Proof.
  intros H. destruct (Nat.lt_ge_cases j (length l)) as [B|B].
  - rewrite nth_error_app1 in H by exact B. auto.
  - rewrite nth_error_app2 in H by exact B. right.
    destruct (j - length l)%nat as [|k] eqn:E; cbn in H; [injection H as <-; split; [lia|reflexivity]|].
    destruct k; discriminate.
Qed.

Lemma nth_app_some {A} (l m : list A) j y : nth_error l j = Some y -> nth_error (l ++ m) j = Some y.
Proof. intros H. rewrite nth_error_app1; [exact H|exact (nth_lt _ _ _ H)]. Qed.

(** ** Induction on types and trees *)

Lemma ty_ind' (P : ty -> Prop) :
  (forall v, P (VARt v)) ->
  (forall a b, P a -> P b -> P (ARROWt a b)) ->
  (forall ts tn, Forall P ts -> P (CONt ts tn)) ->
  (forall r, P (RECt r)) -> forall t, P t.
Proof.
  intros HV HA HC HR.
  fix go 1. intros [v|a b|ts tn|r]; [apply HV|apply HA; apply go| |apply HR].
  apply HC. induction ts as [|t ts IH]; constructor; [apply go|exact IH].
Qed.

Lemma tree_ind' (P : tree -> Prop) :
  (forall a b, P a -> P b -> P (TArrow a b)) ->
  (forall ts tn, Forall P ts -> P (TCon ts tn)) ->
  (forall fs, Forall (fun f => P (snd f)) fs -> P (TRec fs)) ->
  (forall v e i o l, P (TRig v e i o l)) -> forall t, P t.
Proof.
  intros HA HC HR HV.
  fix go 1. intros [a b|ts tn|fs|v e i o l]; [apply HA; apply go| | |apply HV].
  - apply HC. induction ts as [|t ts IH]; constructor; [apply go|exact IH].
  - apply HR. induction fs as [|[l t] fs IH]; constructor; [apply go|exact IH].
Qed.

Lemma wf_con G h ts tn : wf_ty G h (CONt ts tn) <-> length ts = tnArity (G tn) /\ Forall (wf_ty G h) ts.
Proof.
  cbn. apply and_iff_compat_l. induction ts as [|t ts IH]; [split; constructor|].
  rewrite Forall_cons_iff, IH. reflexivity.
Qed.

Lemma alln_con pc pr ts tn : alln pc pr (TCon ts tn) <-> pc tn /\ Forall (alln pc pr) ts.
Proof.
  cbn. apply and_iff_compat_l. induction ts as [|t ts IH]; [split; constructor|].
  rewrite Forall_cons_iff, IH. reflexivity.
Qed.

Lemma alln_rec pc pr fs : alln pc pr (TRec fs) <-> Forall (fun f => alln pc pr (snd f)) fs.
Proof.
  cbn. induction fs as [|[l t] fs IH]; [split; constructor|].
  rewrite Forall_cons_iff, IH. reflexivity.
Qed.

Lemma eq_con G ts tn : eq_ok G (TCon ts tn) <->
  match tnEqu (G tn) with FALSEequ => False | TRUEequ => Forall (eq_ok G) ts | REFequ => True end.
Proof.
  cbn. destruct (tnEqu (G tn)); try reflexivity. induction ts as [|t ts IH]; [split; constructor|].
  rewrite Forall_cons_iff, IH. reflexivity.
Qed.

Lemma eq_rec G fs : eq_ok G (TRec fs) <-> Forall (fun f => eq_ok G (snd f)) fs.
Proof.
  cbn. induction fs as [|[l t] fs IH]; [split; constructor|].
  rewrite Forall_cons_iff, IH. reflexivity.
Qed.

Lemma Forall_perm {A} (P : A -> Prop) l1 l2 : Permutation l1 l2 -> Forall P l1 -> Forall P l2.
Proof. intros E. apply Permutation_Forall, E. Qed.

(** ** Sizes *)

Fixpoint tsize (t : tree) : nat :=
  match t with
  | TArrow a b => S (tsize a + tsize b)
  | TCon ts _ => S ((fix go ts := match ts with [] => O | t :: ts' => tsize t + go ts' end) ts)%nat
  | TRec fs => S (S ((fix go fs := match fs with [] => O | (_, t) :: fs' => S (tsize t) + go fs' end) fs))%nat
  | TRig _ _ _ _ _ => 1%nat
  end.

Fixpoint lsize (ts : list tree) : nat :=
  match ts with [] => O | t :: ts' => (tsize t + lsize ts')%nat end.
Fixpoint rsize (fs : row) : nat :=
  match fs with [] => O | (_, t) :: fs' => (S (tsize t) + rsize fs')%nat end.

Lemma tsize_con ts tn : tsize (TCon ts tn) = S (lsize ts).
Proof. reflexivity. Qed.
Lemma tsize_rec fs : tsize (TRec fs) = S (S (rsize fs)).
Proof. reflexivity. Qed.
Lemma tsize_pos t : (0 < tsize t)%nat.
Proof. destruct t; cbn; lia. Qed.

Lemma rsize_app a b : rsize (a ++ b) = (rsize a + rsize b)%nat.
Proof. induction a as [|[l t] a IH]; cbn; [reflexivity|]. rewrite IH. lia. Qed.

Lemma rsize_perm a b : Permutation a b -> rsize a = rsize b.
Proof.
  induction 1 as [|[l t] a b P IH|[l1 t1] [l2 t2] a|a b c P1 IH1 P2 IH2]; cbn; try lia.
Qed.

Lemma Join_rsize fs m l : Join fs m l -> rsize l = (rsize fs + rsize m)%nat.
Proof. intros [_ P]. rewrite <- (rsize_perm _ _ P). apply rsize_app. Qed.

Lemma lsize_in t ts : In t ts -> (tsize t <= lsize ts)%nat.
Proof. induction ts as [|x ts IH]; [intros []|]. intros [->|H]; cbn; [lia|]. specialize (IH H). lia. Qed.
Lemma rsize_in l t fs : In (l, t) fs -> (tsize t < rsize fs)%nat.
Proof.
  induction fs as [|[l' x] fs IH]; [intros []|]. intros [E|H]; cbn; [injection E as -> ->; lia|].
  specialize (IH H). lia.
Qed.

(** ** Meaning depends only on the cells used *)

Lemma agree_sym h p q : agree h p q -> agree h q p.
Proof. intros (A & B & C). repeat split; intros; symmetry; auto. Qed.
Lemma agree_trans h p q r : agree h p q -> agree h q r -> agree h p r.
Proof.
  intros (A & B & C) (A' & B' & C'). repeat split; intros x I;
    [rewrite (A _ I)|rewrite (B _ I)|rewrite (C _ I)]; auto.
Qed.
Lemma agree_refl h p : agree h p p.
Proof. repeat split. Qed.

Definition grows (h h' : heap) : Prop :=
  (length (vs h) <= length (vs h'))%nat /\ (length (rs h) <= length (rs h'))%nat /\
  (length (ws h) <= length (ws h'))%nat.

Lemma grows_refl h : grows h h.
Proof. repeat split; lia. Qed.
Lemma grows_trans a b c : grows a b -> grows b c -> grows a c.
Proof. intros (?&?&?) (?&?&?). repeat split; lia. Qed.
Lemma agree_grows h h' p q : grows h h' -> agree h' p q -> agree h p q.
Proof. intros (a&b&c) (A&B&C). repeat split; intros; auto with arith; [apply A|apply B|apply C]; lia. Qed.

Lemma wf_ty_grows G h h' t : grows h h' -> wf_ty G h t -> wf_ty G h' t.
Proof.
  intros (a&b&c). induction t as [v|x y IHx IHy|ts tn IH|r] using ty_ind'; intros W.
  - cbn in *. lia.
  - destruct W. split; auto.
  - apply wf_con in W as [E W]. apply wf_con. split; [exact E|].
    rewrite Forall_forall in *. auto.
  - cbn in *. lia.
Qed.

Lemma den_agree G h p q t : agree h p q -> wf_ty G h t -> den p t = den q t.
Proof.
  intros (A&B&C). induction t as [v|x y IHx IHy|ts tn IH|r] using ty_ind'; intros W; cbn.
  - apply A, W.
  - destruct W. f_equal; auto.
  - apply wf_con in W as [_ W]. f_equal. apply map_ext_in. rewrite Forall_forall in *. auto.
  - f_equal. apply B, W.
Qed.

Lemma denf_agree G h p q fs : agree h p q -> (forall l t, In (l, t) fs -> wf_ty G h t) ->
  denf p fs = denf q fs.
Proof.
  intros A W. apply map_ext_in. intros [l t] I. cbn. f_equal. exact (den_agree G h _ _ _ A (W _ _ I)).
Qed.

Lemma labels_denf p fs : labels (denf p fs) = labels fs.
Proof. unfold labels, denf. rewrite map_map. reflexivity. Qed.

Lemma denf_in p fs l d : In (l, d) (denf p fs) -> exists t, In (l, t) fs /\ d = den p t.
Proof. intros H. apply in_map_iff in H as [[l' t] [E H]]. cbn in E. injection E as -> <-. eauto. Qed.
