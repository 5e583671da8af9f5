(** Proofs about Splaymap. *)
From Coq Require Import Sorting.Sorted Sorting.Permutation.
From Verif Require Import Base OrderSpec FinMap MapSpec Splaytree_Model Splaytree_Proofs Splaymap_Model.

Section Maps.
Context {K V : Type} (c : K -> K -> comparison) (TP : total_preorder c).
Notation tree := (splay_tree (K * V)).

(** in the store [st] the dictionary [d] stands for the abstract map [m] *)
Definition rep (st : store (K * V)) (d : dict) (m : list (K * V)) : Prop :=
  exists t, deref st (root d) = Ret t /\ lists fst c (elements t) m /\ nobj d = Z.of_nat (length m).

Lemma rep_le st st' d m : st_le st st' -> rep st d m -> rep st' d m.
Proof.
  intros H (t & D & L & N). destruct (H _ _ D) as (t' & D' & E). exists t'. rewrite E. auto.
Qed.
Lemma rep_perm st d m m' : rep st d m -> Permutation m m' -> rep st d m'.
Proof.
  intros (t & D & [S P] & N) P'. exists t. split; [assumption|]. split.
  - split; [assumption|]. now transitivity m.
  - now rewrite <- (Permutation_length P').
Qed.
Lemma rep_new st t n m : lists fst c (elements t) m -> n = Z.of_nat (length m) ->
  rep (st ++ [t]) (DICT (length st) n) m.
Proof. intros L N. exists t. cbn [root nobj]. rewrite deref_new. auto. Qed.

Lemma mkDict_spec st : exists d st', mkDict st = (Ret d, st') /\ st_le st st' /\ rep st' d [].
Proof.
  eexists. eexists. split; [reflexivity|]. split; [apply new_le|]. apply rep_new; [|reflexivity].
  split; constructor.
Qed.

Lemma splay_at st d (m : list (K * V)) k t : deref st (root d) = Ret t -> lists fst c (elements t) m ->
  (t = SplayNil /\ m = [] /\ splay (cmpf c k) t = (Gt, SplayNil)) \/
  exists e L R, splay (cmpf c k) t = (c (fst e) k, SplayObj e L R) /\
    elements t = elements L ++ e :: elements R /\ klt fst c (elements L) k /\ kgt fst c k (elements R).
Proof.
  intros D [S P]. destruct (splay_sorted fst c TP k t S) as [[-> E]|H]; [left|now right].
  split; [reflexivity|]. split; [now apply Permutation_nil in P|exact E].
Qed.

Lemma slookup_root k (e : K * V) l r : klt fst c l k -> kgt fst c k r ->
  slookup fst c k (l ++ e :: r) = match c (fst e) k with Eq => Some e | _ => None end.
Proof.
  intros HL HR. rewrite (slookup_klt fst c TP) by assumption. cbn [slookup].
  rewrite (tp_sym c TP (fst e) k). destruct (c (fst e) k); cbn [CompOpp]; auto. now apply slookup_kgt.
Qed.

Lemma find_spec st d m k : rep st d m ->
  exists st', find c d k st = (found (am_find fst c k m), st') /\ st_le st st'.
Proof.
  intros (t & D & L & N). unfold find, bindc, get. rewrite D.
  destruct (splay_at st d m k t D L) as [(-> & -> & E)|(e & l & r & E & EL & HL & HR)]; rewrite E.
  - exists st. split; [reflexivity|apply st_le_refl].
  - rewrite <- (lists_find fst c TP k _ _ L), EL, slookup_root by assumption.
    exists (assign st (root d) (SplayObj e l r)).
    split; [|now apply put_le with t]. unfold put, ret, raise. destruct e as [k0 v0]. destruct (c (fst (k0, v0)) k); reflexivity.
Qed.
Lemma peek_spec st d m k : rep st d m ->
  exists st', peek c d k st = (Ret (option_map snd (am_find fst c k m)), st') /\ st_le st st'.
Proof.
  intros H. destruct (find_spec st d m k H) as (st' & E & L). exists st'. split; [|assumption].
  unfold peek. rewrite E. destruct (am_find fst c k m) as [[? ?]|]; reflexivity.
Qed.

Lemma insert_spec st d m k v : rep st d m ->
  exists d' st', insert c d k v st = (Ret d', st') /\ st_le st st' /\ rep st' d' (am_insert fst c (k, v) m).
Proof.
  intros (t & D & L & N). unfold insert, bindc, get. rewrite D. pose proof (lists_length _ _ _ _ L) as LL.
  pose proof (lists_insert fst c TP (k, v) _ _ L) as LI.
  destruct (splay_at st d m k t D L) as [(-> & -> & E)|(e & l & r & E & EL & HL & HR)]; rewrite E.
  - eexists. eexists. split; [reflexivity|]. split; [apply new_le|]. apply rep_new; [exact LI|reflexivity].
  - assert (G : sins fst c (k, v) (elements t) =
        match c (fst e) k with
        | Lt => (elements l ++ [e]) ++ (k, v) :: elements r
        | Eq => elements l ++ (k, v) :: elements r
        | Gt => elements l ++ (k, v) :: e :: elements r
        end).
    { rewrite EL. rewrite (sins_klt fst c TP) by assumption. cbn [sins fst]. rewrite (tp_sym c TP (fst e) k).
      destruct (c (fst e) k); cbn [CompOpp]; [reflexivity| |reflexivity].
      rewrite <- app_assoc. cbn [List.app]. do 2 f_equal. now apply (sins_kgt fst c). }
    rewrite EL, app_length in LL. cbn [length] in LL.
    destruct (c (fst e) k) eqn:Ek; cbn [new newref ret]; eexists; eexists; (split; [reflexivity|]; split; [apply new_le|];
      apply rep_new; [cbn [elements]; rewrite ?app_nil_r; cbn [List.app]; now rewrite <- G|]).
    all: apply lists_length in LI; rewrite <- LI, G; rewrite !app_length; cbn [length]; lia.
Qed.
Lemma remove_spec st d m k : rep st d m ->
  exists st', st_le st st' /\ match am_find fst c k m with
  | Some e => exists d', remove c d k st = (Ret (d', snd e), st') /\ rep st' d' (am_remove fst c k m)
  | None => remove c d k st = (Raise NotFound, st')
  end.
Proof.
  intros (t & D & L & N). unfold remove, bindc, get. rewrite D. pose proof (lists_length _ _ _ _ L) as LL.
  pose proof (lists_remove fst c TP k _ _ L) as LI. rewrite <- (lists_find fst c TP k _ _ L).
  destruct (splay_at st d m k t D L) as [(-> & -> & E)|(e & l & r & E & EL & HL & HR)]; rewrite E.
  - exists st. split; [apply st_le_refl|]. reflexivity.
  - rewrite EL in LI |- *. rewrite slookup_root by assumption. rewrite (sdel_klt fst c TP) in LI by assumption. cbn [sdel] in LI.
    rewrite (tp_sym c TP (fst e) k) in LI. rewrite EL, app_length in LL. cbn [length] in LL.
    destruct (c (fst e) k) eqn:Ek; cbn [CompOpp] in LI; cbn [new newref ret].
    + eexists. split; [|eexists; split; [reflexivity|]]; [apply new_le|].
      apply rep_new; [now rewrite join_spec|]. apply lists_length in LI. rewrite <- LI, app_length. lia.
    + eexists. split; [|reflexivity]. now apply put_le with t.
    + eexists. split; [|reflexivity]. now apply put_le with t.
Qed.
Lemma map_lists (f : K * V -> V) l m : lists fst c l m ->
  lists fst c (List.map (fun e => (fst e, f e)) l) (List.map (fun e => (fst e, f e)) m).
Proof.
  intros [S P]. split; [|now apply Permutation_map]. clear P. induction S as [|x l S IH F]; [constructor|].
  cbn. constructor; [assumption|]. apply Forall_map. exact F.
Qed.
Lemma map_ap_spec f (t : tree) : elements (map_ap f t) = List.map (fun e => (fst e, f e)) (elements t).
Proof.
  induction t as [v l IHl r IHr|]; [|reflexivity]. cbn [map_ap elements]. rewrite map_app. cbn [List.map]. now rewrite IHl, IHr.
Qed.
Lemma transform_ap_spec f (t : tree) : elements (transform_ap f t) = List.map (fun e => (fst e, f (snd e))) (elements t).
Proof.
  induction t as [v l IHl r IHr|]; [|reflexivity]. cbn [transform_ap elements]. rewrite map_app. cbn [List.map]. now rewrite IHl, IHr.
Qed.
Lemma map_spec f st d m : rep st d m ->
  exists d' st', map f d st = (Ret d', st') /\ st_le st st' /\ rep st' d' (List.map (fun e => (fst e, f e)) m).
Proof.
  intros (t & D & L & N). unfold map, bindc, get. rewrite D. eexists. eexists. split; [reflexivity|]. split; [apply new_le|].
  apply rep_new; [rewrite map_ap_spec; now apply map_lists|]. now rewrite map_length.
Qed.
Lemma transform_spec f st d m : rep st d m ->
  exists d' st', transform f d st = (Ret d', st') /\ st_le st st' /\ rep st' d' (List.map (fun e => (fst e, f (snd e))) m).
Proof.
  intros (t & D & L & N). unfold transform, bindc, get. rewrite D. eexists. eexists. split; [reflexivity|]. split; [apply new_le|].
  apply rep_new; [rewrite transform_ap_spec; now apply (map_lists (fun e => f (snd e)))|]. now rewrite map_length.
Qed.
Lemma list_apply_spec (t : tree) res : list_apply t res = elements t ++ res.
Proof.
  revert res. induction t as [v l IHl r IHr|]; intros res; [|reflexivity]. cbn [list_apply elements].
  rewrite IHl, IHr, <- app_assoc. reflexivity.
Qed.
Lemma app_apply_spec {S} (f : K * V -> S -> S) (t : tree) s :
  app_apply f t s = fold_left (fun s e => f e s) (elements t) s.
Proof.
  revert s. induction t as [v l IHl r IHr|]; intros s; [|reflexivity]. cbn [app_apply elements].
  rewrite IHl, IHr, fold_left_app. reflexivity.
Qed.
Lemma revapp_apply_spec {S} (f : K * V -> S -> S) (t : tree) s :
  revapp_apply f t s = fold_left (fun s e => f e s) (rev (elements t)) s.
Proof.
  revert s. induction t as [v l IHl r IHr|]; intros s; [|reflexivity]. cbn [revapp_apply elements].
  rewrite IHl, IHr, rev_app_distr, fold_left_app. cbn [rev]. rewrite fold_left_app. reflexivity.
Qed.
Lemma foldr_apply_spec {B} (f : K -> V -> B -> B) (t : tree) b :
  foldr_apply f t b = fold_right (fun e acc => f (fst e) (snd e) acc) b (elements t).
Proof.
  revert b. induction t as [v l IHl r IHr|]; intros b; [|reflexivity]. cbn [foldr_apply elements].
  rewrite IHl, IHr, fold_right_app. reflexivity.
Qed.
Lemma foldl_apply_spec {B} (f : K -> V -> B -> B) (t : tree) b :
  foldl_apply f t b = fold_left (fun acc e => f (fst e) (snd e) acc) (elements t) b.
Proof.
  revert b. induction t as [v l IHl r IHr|]; intros b; [|reflexivity]. cbn [foldl_apply elements].
  rewrite IHl, IHr, fold_left_app. reflexivity.
Qed.
End Maps.
