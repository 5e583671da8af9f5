(** Proofs about Binarymap. *)
From Coq Require Import Sorting.Sorted Sorting.Permutation.
From Verif Require Import Base OrderSpec FinMap MapSpec Wbtree_Model Wbtree_Proofs Binarymap_Model.

Section Search.
Context {K V : Type} (c : K -> K -> comparison) (TP : total_preorder c).
Notation dict := (dict K V).
Notation sorted := (StronglySorted (fun x y : K * V => c (fst x) (fst y) = Lt)).
Notation slookup := (slookup (@fst K V) c).
Notation sins := (sins (@fst K V) c).
Notation sdel := (sdel (@fst K V) c).

Lemma flip k k' : c k k' = match c k' k with Lt => Gt | Gt => Lt | Eq => Eq end.
Proof. rewrite (tp_sym c TP k' k). now destruct (c k k'). Qed.

Lemma insert_spec k v (t : dict) : ok t -> sorted (elements t) ->
  exists t', insert c t k v = Ret t' /\ ok t' /\ elements t' = sins (k, v) (elements t).
Proof.
  induction t as [|[key value] n l IHl r IHr]; intros O S; [eexists; repeat split|].
  cbn [insert elements] in *. pose proof S as S'. apply (sorted_app fst) in S' as (S1 & S2 & _); auto.
  rewrite (sins_app fst c TP) by assumption. cbn [fst]. rewrite (flip k key). destruct O as (On & Ol & Or).
  destruct (c key k) eqn:E.
  - eexists. split; [reflexivity|]. split; [|reflexivity]. split; [|auto].
    rewrite On. cbn [elements]. now rewrite !app_length.
  - destruct (IHr Or S2) as (t' & E1 & O1 & EL1). rewrite E1. cbn [bind].
    destruct (T'_spec (key, value) l t' Ol O1) as (t2 & E2 & O2 & EL2). rewrite EL1 in EL2. eauto.
  - destruct (IHl Ol S1) as (t' & E1 & O1 & EL1). rewrite E1. cbn [bind].
    destruct (T'_spec (key, value) t' r O1 Or) as (t2 & E2 & O2 & EL2). rewrite EL1 in EL2. eauto.
Qed.
Lemma find_spec k (t : dict) : sorted (elements t) -> find c t k = found (slookup k (elements t)).
Proof.
  induction t as [|[key value] n l IHl r IHr]; intros S; [reflexivity|].
  cbn [find elements] in *. pose proof S as S'. apply (sorted_app fst) in S' as (S1 & S2 & _); auto.
  rewrite (slookup_app fst c TP) by assumption. cbn [fst]. destruct (c k key); auto.
Qed.
Lemma remove_spec k (t : dict) : ok t -> sorted (elements t) ->
  match slookup k (elements t) with
  | Some (_, v) => exists t', remove c t k = Ret (t', v) /\ ok t' /\ elements t' = sdel k (elements t)
  | None => remove c t k = Raise NotFound
  end.
Proof.
  induction t as [|[key value] n l IHl r IHr]; intros O S; [reflexivity|].
  cbn [remove elements] in *. pose proof S as S'. apply (sorted_app fst) in S' as (S1 & S2 & _); auto.
  rewrite (slookup_app fst c TP), (sdel_app fst c TP) by assumption. cbn [fst]. rewrite (flip k key).
  destruct O as (On & Ol & Or). destruct (c key k) eqn:E.
  - destruct (delete'_spec l r Ol Or) as (t' & E1 & O1 & EL1). rewrite E1. cbn. eauto.
  - specialize (IHr Or S2). destruct (slookup k (elements r)) as [[k' v]|]; [|now rewrite IHr].
    destruct IHr as (t' & E1 & O1 & EL1). rewrite E1. cbn [bind].
    destruct (T'_spec (key, value) l t' Ol O1) as (t2 & E2 & O2 & EL2). rewrite E2, EL1 in *. cbn [bind]. eauto.
  - specialize (IHl Ol S1). destruct (slookup k (elements l)) as [[k' v]|]; [|now rewrite IHl].
    destruct IHl as (t' & E1 & O1 & EL1). rewrite E1. cbn [bind].
    destruct (T'_spec (key, value) t' r O1 Or) as (t2 & E2 & O2 & EL2). rewrite E2, EL1 in *. cbn [bind]. eauto.
Qed.

Definition inv (d : dict) (m : list (K * V)) : Prop := lists fst c (elements d) m /\ ok d.
Lemma inv_empty : inv mkDict [].
Proof. split; [split; constructor|exact I]. Qed.
Lemma inv_insert d m k v : inv d m -> exists d', insert c d k v = Ret d' /\ inv d' (am_insert fst c (k, v) m).
Proof.
  intros [L O]. destruct (insert_spec k v d O (proj1 L)) as (t & E & O' & EL). exists t. split; [assumption|].
  split; [|assumption]. rewrite EL. now apply lists_insert.
Qed.
Lemma inv_find d m k : inv d m -> find c d k = found (am_find fst c k m).
Proof. intros [L O]. rewrite find_spec by apply L. now rewrite (lists_find fst c TP k _ _ L). Qed.
Lemma inv_remove d m k : inv d m ->
  match am_find fst c k m with
  | Some (_, v) => exists d', remove c d k = Ret (d', v) /\ inv d' (am_remove fst c k m)
  | None => remove c d k = Raise NotFound
  end.
Proof.
  intros [L O]. pose proof (remove_spec k d O (proj1 L)) as H. rewrite (lists_find fst c TP k _ _ L) in H.
  destruct (am_find fst c k m) as [[k' v]|]; [|assumption].
  destruct H as (t & E & O' & EL). exists t. split; [assumption|]. split; [|assumption].
  rewrite EL. now apply lists_remove.
Qed.
Lemma inv_numItems d m : inv d m -> numItems d = Z.of_nat (length m).
Proof. intros [L O]. unfold numItems. rewrite ok_size by assumption. now rewrite (lists_length _ _ _ _ L). Qed.
End Search.

Section Maps.
Context {K V W : Type} (c : K -> K -> comparison).
Lemma map_elements (f : K -> V -> W) (d : dict K V) :
  elements (map f d) = List.map (fun p => (fst p, f (fst p) (snd p))) (elements d).
Proof. induction d as [|[k v] n l IHl r IHr]; cbn; [reflexivity|]. now rewrite map_app, IHl, IHr. Qed.
Lemma map_ok (f : K -> V -> W) (d : dict K V) : ok d -> ok (map f d).
Proof.
  induction d as [|[k v] n l IHl r IHr]; cbn [map ok]; [auto|]. intros (-> & Hl & Hr).
  split; [|auto]. cbn [elements]. rewrite !app_length. cbn [length]. now rewrite !map_elements, !map_length.
Qed.
Lemma transform_map (f : V -> W) (d : dict K V) : transform f d = map (fun _ v => f v) d.
Proof. induction d as [|[k v] n l IHl r IHr]; cbn; congruence. Qed.
Lemma lists_map (g : K * V -> K * W) (Hg : forall p, fst (g p) = fst p) l m :
  lists fst c l m -> lists fst c (List.map g l) (List.map g m).
Proof.
  intros [S P]. split; [|now apply Permutation_map]. clear P m.
  induction S as [|x l S IH F]; cbn; constructor; auto.
  apply Forall_map. eapply Forall_impl; [|exact F]. cbn. intros a. now rewrite !Hg.
Qed.
Lemma inv_map (f : K -> V -> W) (d : dict K V) m : inv c d m ->
  inv c (map f d) (List.map (fun p => (fst p, f (fst p) (snd p))) m).
Proof. intros [L O]. split; [|now apply map_ok]. rewrite map_elements. now apply lists_map. Qed.
Lemma inv_transform (f : V -> W) (d : dict K V) m : inv c d m ->
  inv c (transform f d) (List.map (fun p => (fst p, f (snd p))) m).
Proof. rewrite transform_map. apply inv_map. Qed.
End Maps.
