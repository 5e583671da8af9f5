(** Property C28 (sets): Splayset implements persistent finite sets although lookups rewrite the
    shared trees in place. *)
From Coq Require Import Sorting.Sorted Sorting.Permutation.
From Verif Require Import Base OrderSpec FinMap SetSpec Splaytree_Model Splaytree_Proofs Splayset_Model Splayset_Proofs.

(** [reach c st env]: some client program reaches the store [st] holding the sets listed in [env],
    each with the abstract set (a list without EQUAL items, in any order) that the same operations
    produce.  Old versions stay available and may share cells. *)
Inductive reach {A} (c : A -> A -> comparison) : store A -> list (set * list A) -> Prop :=
| r_start : reach c [] []
| r_empty st env d st' : reach c st env -> empty st = (Ret d, st') -> reach c st' ((d, []) :: env)
| r_singleton st env x d st' : reach c st env -> singleton x st = (Ret d, st') -> reach c st' ((d, [x]) :: env)
| r_add st env d s x d' st' : reach c st env -> In (d, s) env ->
    add c d x st = (Ret d', st') -> reach c st' ((d', set_replace c x s) :: env)
| r_addList st env d s xs d' st' : reach c st env -> In (d, s) env ->
    addList c d xs st = (Ret d', st') -> reach c st' ((d', fold_left (fun s x => set_replace c x s) xs s) :: env)
| r_delete st env d s x d' st' : reach c st env -> In (d, s) env ->
    delete c d x st = (Ret d', st') -> reach c st' ((d', set_delete c x s) :: env)
| r_delete_fail st env d s x e st' : reach c st env -> In (d, s) env ->
    delete c d x st = (Raise e, st') -> reach c st' env
| r_peek st env d s x r st' : reach c st env -> In (d, s) env -> peek c d x st = (r, st') -> reach c st' env
| r_member st env d s x r st' : reach c st env -> In (d, s) env -> member c d x st = (r, st') -> reach c st' env
| r_retrieve st env d s x r st' : reach c st env -> In (d, s) env -> retrieve c d x st = (r, st') -> reach c st' env
| r_union st env d1 s1 d2 s2 d' st' : reach c st env -> In (d1, s1) env -> In (d2, s2) env ->
    union c d1 d2 st = (Ret d', st') -> reach c st' ((d', set_union c s2 s1) :: env)
| r_inter st env d1 s1 d2 s2 d' st' : reach c st env -> In (d1, s1) env -> In (d2, s2) env ->
    intersection c d1 d2 st = (Ret d', st') -> reach c st' ((d', set_inter c s1 s2) :: env)
| r_diff st env d1 s1 d2 s2 d' st' : reach c st env -> In (d1, s1) env -> In (d2, s2) env ->
    difference c d1 d2 st = (Ret d', st') -> reach c st' ((d', set_diff c s1 s2) :: env)
| r_order st env d s s' : reach c st env -> In (d, s) env -> Permutation s s' -> reach c st ((d, s') :: env).

Lemma reach_rep {A} (c : A -> A -> comparison) (TP : total_preorder c) (st : store A) env :
  reach c st env -> forall d s, In (d, s) env -> rep c st d s.
Proof.
  induction 1 as [|st env d0 st' H IH E|st env x d0 st' H IH E|st env d0 s0 x d1 st' H IH HI E
    |st env d0 s0 xs d1 st' H IH HI E|st env d0 s0 x d1 st' H IH HI E|st env d0 s0 x e st' H IH HI E
    |st env d0 s0 x r st' H IH HI E|st env d0 s0 x r st' H IH HI E|st env d0 s0 x r st' H IH HI E
    |st env d1 s1 d2 s2 d' st' H IH HI HI2 E|st env d1 s1 d2 s2 d' st' H IH HI HI2 E
    |st env d1 s1 d2 s2 d' st' H IH HI HI2 E|st env d0 s0 s1 H IH HI P]; intros d m Hin.
  - destruct Hin.
  - destruct (empty_spec c st) as (d2 & st2 & E2 & L & R). rewrite E in E2. injection E2 as <- <-.
    destruct Hin as [[= <- <-]|Hin]; [assumption|]. eapply rep_le; eauto.
  - destruct (singleton_spec c st x) as (d2 & st2 & E2 & L & R). rewrite E in E2. injection E2 as <- <-.
    destruct Hin as [[= <- <-]|Hin]; [assumption|]. eapply rep_le; eauto.
  - destruct (add_spec c TP st d0 s0 x (IH _ _ HI)) as (d2 & st2 & E2 & L & R). rewrite E in E2. injection E2 as <- <-.
    destruct Hin as [[= <- <-]|Hin]; [assumption|]. eapply rep_le; eauto.
  - destruct (addList_spec c TP st d0 s0 xs (IH _ _ HI)) as (d2 & st2 & E2 & L & R). rewrite E in E2. injection E2 as <- <-.
    destruct Hin as [[= <- <-]|Hin]; [assumption|]. eapply rep_le; eauto.
  - destruct (delete_spec c TP st d0 s0 x (IH _ _ HI)) as (st2 & L & R).
    destruct (set_mem c x s0); [destruct R as (d2 & E2 & R)|congruence].
    rewrite E in E2. injection E2 as <- <-.
    destruct Hin as [[= <- <-]|Hin]; [assumption|]. eapply rep_le; eauto.
  - destruct (delete_spec c TP st d0 s0 x (IH _ _ HI)) as (st2 & L & R).
    destruct (set_mem c x s0); [destruct R as (d2 & E2 & R); congruence|].
    rewrite E in R. injection R as _ <-. eapply rep_le; eauto.
  - destruct (peek_spec c TP st d0 s0 x (IH _ _ HI)) as (st2 & E2 & L). rewrite E in E2. injection E2 as _ <-.
    eapply rep_le; eauto.
  - destruct (member_spec c TP st d0 s0 x (IH _ _ HI)) as (st2 & E2 & L). rewrite E in E2. injection E2 as _ <-.
    eapply rep_le; eauto.
  - destruct (retrieve_spec c TP st d0 s0 x (IH _ _ HI)) as (st2 & E2 & L). rewrite E in E2. injection E2 as _ <-.
    eapply rep_le; eauto.
  - destruct (union_spec c TP st _ _ _ _ (IH _ _ HI) (IH _ _ HI2)) as (d3 & st2 & E2 & L & R). rewrite E in E2. injection E2 as <- <-.
    destruct Hin as [[= <- <-]|Hin]; [assumption|]. eapply rep_le; eauto.
  - destruct (intersection_spec c TP st _ _ _ _ (IH _ _ HI) (IH _ _ HI2)) as (d3 & st2 & E2 & L & R). rewrite E in E2. injection E2 as <- <-.
    destruct Hin as [[= <- <-]|Hin]; [assumption|]. eapply rep_le; eauto.
  - destruct (difference_spec c TP st _ _ _ _ (IH _ _ HI) (IH _ _ HI2)) as (d3 & st2 & E2 & L & R). rewrite E in E2. injection E2 as <- <-.
    destruct Hin as [[= <- <-]|Hin]; [assumption|]. eapply rep_le; eauto.
  - destruct Hin as [[= <- <-]|Hin]; [|auto]. eapply rep_perm; eauto.
Qed.

(** Every set ever obtained, however many operations (on it or on others) were done since, behaves
    as its abstract set. *)
Theorem C28_splayset_observers : forall A (c : A -> A -> comparison), total_preorder c ->
  forall (st : store A) env, reach c st env -> forall d s, In (d, s) env ->
  numItems d = Z.of_nat (length s) /\
  (isEmpty d = true <-> s = []) /\
  (forall x, fst (member c d x st) = Ret (set_mem c x s)) /\
  (forall x, fst (peek c d x st) = Ret (List.find (is_equal c x) s)) /\
  (forall x, fst (retrieve c d x st) = match List.find (is_equal c x) s with Some y => Ret y | None => Raise NotFound end) /\
  (forall x, if set_mem c x s then exists d' st', delete c d x st = (Ret d', st')
             else exists st', delete c d x st = (Raise NotFound, st')) /\
  (forall x, exists d' st', add c d x st = (Ret d', st')) /\
  (forall xs, exists d' st', addList c d xs st = (Ret d', st')) /\
  (forall p, exists r, find p d st = (Ret r, st) /\
             match r with
             | Some x => In x s /\ p x = true
             | None => forall x, In x s -> p x = false
             end) /\
  exists l, set_lists c l s /\ listItems d st = (Ret l, st) /\
    (forall B (f : A -> B -> B) e, foldl f e d st = (Ret (fold_left (fun acc x => f x acc) l e), st)) /\
    (forall B (f : A -> B -> B) e, foldr f e d st = (Ret (fold_right f e l), st)) /\
    (forall S (f : A -> S -> S) u, app f d u st = (Ret (fold_left (fun u x => f x u) l u), st)) /\
    (forall S (f : A -> S -> S) u, revapp f d u st = (Ret (fold_left (fun u x => f x u) (rev l) u), st)).
Proof.
  intros A c TP st env H d s Hin. apply (reach_rep c TP st env H) in Hin as R.
  split; [eapply rep_len; eauto|].
  split. { unfold isEmpty. rewrite (rep_len _ _ _ _ R). destruct s; cbn [length]; split; try easy; lia. }
  split. { intros x. destruct (member_spec c TP st d s x R) as (st' & E & _). now rewrite E. }
  split. { intros x. destruct (peek_spec c TP st d s x R) as (st' & E & _). now rewrite E. }
  split. { intros x. destruct (retrieve_spec c TP st d s x R) as (st' & E & _). now rewrite E. }
  split. { intros x. destruct (delete_spec c TP st d s x R) as (st' & _ & E).
    destruct (set_mem c x s); [destruct E as (d' & E & _)|]; eauto. }
  split. { intros x. destruct (add_spec c TP st d s x R) as (d' & st' & E & _). eauto. }
  split. { intros xs. destruct (addList_spec c TP st d s xs R) as (d' & st' & E & _). eauto. }
  destruct R as (t & D & L & N).
  unfold find, listItems, foldl, foldr, app, revapp, bindc, get, ret. rewrite D.
  split. { intros p. eexists. split; [reflexivity|]. pose proof (ex_spec p t) as F. destruct (ex p t) as [x|].
    - destruct F as [F1 F2]. split; [|assumption]. now apply (set_lists_In c (elements t) s).
    - intros x Hx. apply F. now apply (set_lists_In c (elements t) s). }
  exists (elements t). split; [assumption|].
  split; [now rewrite list_apply_spec, app_nil_r|].
  split; [intros; now rewrite foldl_apply_spec|]. split; [intros; now rewrite foldr_apply_spec|].
  split; [intros; now rewrite app_apply_spec|intros; now rewrite revapp_apply_spec].
Qed.

(** The operations on two sets: they all succeed (and [reach] says with what result), and the
    comparisons answer as documented. *)
Theorem C28_splayset_binary : forall A (c : A -> A -> comparison), total_preorder c ->
  forall (st : store A) env, reach c st env -> forall d1 s1 d2 s2, In (d1, s1) env -> In (d2, s2) env ->
  (exists d st', union c d1 d2 st = (Ret d, st')) /\
  (exists d st', intersection c d1 d2 st = (Ret d, st')) /\
  (exists d st', difference c d1 d2 st = (Ret d, st')) /\
  isSubset c d1 d2 st = (Ret (set_subset c s1 s2), st) /\
  equal c d1 d2 st = (Ret (set_equal c s1 s2), st).
Proof.
  intros A c TP st env H d1 s1 d2 s2 H1 H2. apply (reach_rep c TP st env H) in H1, H2.
  destruct (union_spec c TP st _ _ _ _ H1 H2) as (u & st1 & Eu & _).
  destruct (intersection_spec c TP st _ _ _ _ H1 H2) as (i & st2 & Ei & _).
  destruct (difference_spec c TP st _ _ _ _ H1 H2) as (f & st3 & Ef & _).
  split; [eauto|]. split; [eauto|]. split; [eauto|].
  split; [now apply isSubset_spec|now apply equal_spec].
Qed.

Example C28_splayset_example : total_preorder Z.compare /\
  (exists st d0 d1 d2 d3, reach Z.compare st [(d3, [4; 2; 3; 1]); (d2, [4; 2]); (d1, [3; 2; 1]); (d0, [])]) /\
  fst ((let! d0 <- empty; let! d1 <- addList Z.compare d0 [1; 2; 3]; let! d2 <- addList Z.compare d0 [2; 4];
        let! d3 <- union Z.compare d1 d2; let! b <- member Z.compare d1 4; let! d4 <- difference Z.compare d3 d2;
        let! l1 <- listItems d1; let! l3 <- listItems d3; let! l4 <- listItems d4; ret (b, [l1; l3; l4])) [])
  = Ret (false, [[1; 2; 3]; [1; 2; 3; 4]; [1; 3]]).
Proof.
  split; [apply to_tp, Z_compare_total_order|]. split; [|reflexivity].
  do 5 eexists. eapply r_union with (s1 := [3; 2; 1]) (s2 := [4; 2]).
  - eapply r_addList with (s := []) (xs := [2; 4]).
    + eapply r_addList with (s := []) (xs := [1; 2; 3]).
      * eapply r_empty; [constructor|reflexivity].
      * left; reflexivity.
      * reflexivity.
    + right; left; reflexivity.
    + reflexivity.
  - right; left; reflexivity.
  - left; reflexivity.
  - reflexivity.
Qed.

Print Assumptions C28_splayset_observers.
Print Assumptions C28_splayset_binary.
