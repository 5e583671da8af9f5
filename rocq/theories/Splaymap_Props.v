(** Property C28 (maps): Splaymap implements persistent finite maps although lookups rewrite the
    shared trees in place. *)
From Coq Require Import Sorting.Sorted Sorting.Permutation.
From Verif Require Import Base OrderSpec FinMap MapSpec Splaytree_Model Splaytree_Proofs Splaymap_Model Splaymap_Proofs.

(** [reach c st env]: some client program reaches the store [st] holding the dictionaries listed in
    [env], each with the abstract map that the same operations produce.  Old versions stay available:
    any dictionary in [env] can be used again at any time, and several may share cells. *)
Inductive reach {K V} (c : K -> K -> comparison) : store (K * V) -> list (dict * list (K * V)) -> Prop :=
| r_start : reach c [] []
| r_mkDict st env d st' : reach c st env -> mkDict st = (Ret d, st') -> reach c st' ((d, []) :: env)
| r_insert st env d m k v d' st' : reach c st env -> In (d, m) env ->
    insert c d k v st = (Ret d', st') -> reach c st' ((d', am_insert fst c (k, v) m) :: env)
| r_remove st env d m k d' v st' : reach c st env -> In (d, m) env ->
    remove c d k st = (Ret (d', v), st') -> reach c st' ((d', am_remove fst c k m) :: env)
| r_remove_fail st env d m k e st' : reach c st env -> In (d, m) env ->
    remove c d k st = (Raise e, st') -> reach c st' env
| r_find st env d m k r st' : reach c st env -> In (d, m) env -> find c d k st = (r, st') -> reach c st' env
| r_peek st env d m k r st' : reach c st env -> In (d, m) env -> peek c d k st = (r, st') -> reach c st' env
| r_map st env d m f d' st' : reach c st env -> In (d, m) env ->
    map f d st = (Ret d', st') -> reach c st' ((d', List.map (fun e => (fst e, f e)) m) :: env)
| r_transform st env d m f d' st' : reach c st env -> In (d, m) env ->
    transform f d st = (Ret d', st') -> reach c st' ((d', List.map (fun e => (fst e, f (snd e))) m) :: env).

(** The observable behaviour of [d] in the store [st] is that of the abstract map [m]. *)
Definition sm_agrees {K V} (c : K -> K -> comparison) (st : store (K * V)) (d : dict) (m : list (K * V)) : Prop :=
  numItems d = Z.of_nat (length m) /\
  (forall k, fst (find c d k st) = found (am_find fst c k m)) /\
  (forall k, fst (peek c d k st) = Ret (option_map snd (am_find fst c k m))) /\
  (forall k, match am_find fst c k m with
             | Some (_, v) => exists d' st', remove c d k st = (Ret (d', v), st')
             | None => exists st', remove c d k st = (Raise NotFound, st')
             end) /\
  (forall k v, exists d' st', insert c d k v st = (Ret d', st')) /\
  (forall f, exists d' st', map f d st = (Ret d', st')) /\
  (forall f, exists d' st', transform f d st = (Ret d', st')) /\
  exists l, lists fst c l m /\ listItems d st = (Ret l, st) /\
    (forall B (f : K -> V -> B -> B) e, foldl f e d st = (Ret (fold_left (fun acc p => f (fst p) (snd p) acc) l e), st)) /\
    (forall B (f : K -> V -> B -> B) e, foldr f e d st = (Ret (fold_right (fun p acc => f (fst p) (snd p) acc) e l), st)) /\
    (forall S (f : K * V -> S -> S) s, app f d s st = (Ret (fold_left (fun s p => f p s) l s), st)) /\
    (forall S (f : K * V -> S -> S) s, revapp f d s st = (Ret (fold_left (fun s p => f p s) (rev l) s), st)).

Lemma rep_agrees {K V} (c : K -> K -> comparison) (TP : total_preorder c) (st : store (K * V)) d m :
  rep c st d m -> sm_agrees c st d m.
Proof.
  intros H. split; [destruct H as (t & _ & _ & N); exact N|].
  split. { intros k. destruct (find_spec c TP st d m k H) as (st' & E & _). now rewrite E. }
  split. { intros k. destruct (peek_spec c TP st d m k H) as (st' & E & _). now rewrite E. }
  split. { intros k. destruct (remove_spec c TP st d m k H) as (st' & _ & E).
    destruct (am_find fst c k m) as [[k' v]|]; [destruct E as (d' & E & _)|]; eauto. }
  split. { intros k v. destruct (insert_spec c TP st d m k v H) as (d' & st' & E & _). eauto. }
  split. { intros f. destruct (map_spec c f st d m H) as (d' & st' & E & _). eauto. }
  split. { intros f. destruct (transform_spec c f st d m H) as (d' & st' & E & _). eauto. }
  destruct H as (t & D & L & N). exists (elements t). split; [assumption|].
  unfold listItems, foldl, foldr, app, revapp, bindc, get, ret. rewrite D.
  split; [now rewrite list_apply_spec, app_nil_r|].
  split; [intros; now rewrite foldl_apply_spec|]. split; [intros; now rewrite foldr_apply_spec|].
  split; [intros; now rewrite app_apply_spec|intros; now rewrite revapp_apply_spec].
Qed.

Lemma reach_rep {K V} (c : K -> K -> comparison) (TP : total_preorder c) (st : store (K * V)) env :
  reach c st env -> forall d m, In (d, m) env -> rep c st d m.
Proof.
  induction 1 as [|st env d0 st' H IH E|st env d0 m0 k v d1 st' H IH HI E|st env d0 m0 k d1 v st' H IH HI E
    |st env d0 m0 k e st' H IH HI E|st env d0 m0 k r st' H IH HI E|st env d0 m0 k r st' H IH HI E
    |st env d0 m0 f d1 st' H IH HI E|st env d0 m0 f d1 st' H IH HI E]; intros d m Hin.
  - destruct Hin.
  - destruct (mkDict_spec c st) as (d2 & st2 & E2 & L & R). rewrite E in E2. injection E2 as <- <-.
    destruct Hin as [[= <- <-]|Hin]; [assumption|]. eapply rep_le; eauto.
  - destruct (insert_spec c TP st d0 m0 k v (IH _ _ HI)) as (d2 & st2 & E2 & L & R). rewrite E in E2. injection E2 as <- <-.
    destruct Hin as [[= <- <-]|Hin]; [assumption|]. eapply rep_le; eauto.
  - destruct (remove_spec c TP st d0 m0 k (IH _ _ HI)) as (st2 & L & R).
    destruct (am_find fst c k m0) as [e|]; [destruct R as (d2 & E2 & R)|congruence].
    rewrite E in E2. injection E2 as <- _ <-.
    destruct Hin as [[= <- <-]|Hin]; [assumption|]. eapply rep_le; eauto.
  - destruct (remove_spec c TP st d0 m0 k (IH _ _ HI)) as (st2 & L & R).
    destruct (am_find fst c k m0) as [p|]; [destruct R as (d2 & E2 & R); congruence|].
    rewrite E in R. injection R as _ <-. eapply rep_le; eauto.
  - destruct (find_spec c TP st d0 m0 k (IH _ _ HI)) as (st2 & E2 & L). rewrite E in E2. injection E2 as _ <-.
    eapply rep_le; eauto.
  - destruct (peek_spec c TP st d0 m0 k (IH _ _ HI)) as (st2 & E2 & L). rewrite E in E2. injection E2 as _ <-.
    eapply rep_le; eauto.
  - destruct (map_spec c f st d0 m0 (IH _ _ HI)) as (d2 & st2 & E2 & L & R). rewrite E in E2. injection E2 as <- <-.
    destruct Hin as [[= <- <-]|Hin]; [assumption|]. eapply rep_le; eauto.
  - destruct (transform_spec c f st d0 m0 (IH _ _ HI)) as (d2 & st2 & E2 & L & R). rewrite E in E2. injection E2 as <- <-.
    destruct Hin as [[= <- <-]|Hin]; [assumption|]. eapply rep_le; eauto.
Qed.

(** Every dictionary ever obtained, however many operations (on it or on others) were done since,
    behaves as its abstract map. *)
Theorem C28_splaymap : forall K V (c : K -> K -> comparison), total_preorder c ->
  forall (st : store (K * V)) env, reach c st env ->
  forall d m, In (d, m) env -> sm_agrees c st d m.
Proof. intros K V c TP st env H d m Hin. apply rep_agrees; [assumption|]. eapply reach_rep; eauto. Qed.

(** Three versions; a lookup in the oldest one rewrites its tree. *)
Definition C28_prog : outcome (list (list (Z * Z)) * list (option Z)) * store (Z * Z) :=
  (let! d0 <- mkDict;
   let! d1 <- insert Z.compare d0 2 20;
   let! d2 <- insert Z.compare d1 1 10;
   let! d3 <- insert Z.compare d2 3 30;
   let! a <- peek Z.compare d3 1;
   let! rv <- remove Z.compare d3 2;
   let! b <- peek Z.compare d3 2;
   let! c <- peek Z.compare d1 1;
   let! l1 <- listItems d1; let! l3 <- listItems d3; let! l4 <- listItems (fst rv);
   ret ([l1; l3; l4], [a; Some (snd rv); b; c])) [].
Example C28_splaymap_example : total_preorder Z.compare /\
  fst C28_prog = Ret ([[(2, 20)]; [(1, 10); (2, 20); (3, 30)]; [(1, 10); (3, 30)]],
                      [Some 10; Some 20; Some 20; None]) /\
  exists st d1 d3, reach Z.compare st [(d3, [(1, 10); (2, 20)]); (d1, [(2, 20)]); (DICT 0 0, [])].
Proof.
  split; [apply to_tp, Z_compare_total_order|]. split; [reflexivity|].
  do 3 eexists. eapply r_insert with (m := [(2, 20)]) (k := 1) (v := 10).
  - eapply r_insert with (m := []) (k := 2) (v := 20).
    + eapply r_mkDict; [constructor|reflexivity].
    + now left.
    + reflexivity.
  - now left.
  - reflexivity.
Qed.
Print Assumptions C28_splaymap.
