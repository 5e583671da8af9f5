(** Proofs about weight balanced trees: contents, counters, absence of failures. *)
From Verif Require Import Base Wbtree_Model.

Section Wb.
Context {A : Type}.
Notation tree := (tree A).

Fixpoint elements (t : tree) : list A :=
  match t with E => [] | T v _ l r => elements l ++ v :: elements r end.

(** all counters are right *)
Fixpoint ok (t : tree) : Prop :=
  match t with
  | E => True
  | T v n l r => n = Z.of_nat (length (elements t)) /\ ok l /\ ok r
  end.

Lemma ok_size t : ok t -> treeSize t = Z.of_nat (length (elements t)).
Proof. destruct t; [reflexivity|]. intros [-> _]. reflexivity. Qed.

Lemma N_spec v l r : ok l -> ok r -> ok (N v l r) /\ elements (N v l r) = elements l ++ v :: elements r.
Proof.
  intros Hl Hr. pose proof (ok_size _ Hl) as L. pose proof (ok_size _ Hr) as R.
  destruct l as [|lv ln ll lr], r as [|rv rn rl rr]; cbn [N treeSize] in *; (split; [|reflexivity]);
    (split; [|auto]); cbn [elements] in *; repeat (rewrite app_length in *; cbn [length] in *); cbn [length] in *; lia.
Qed.

Ltac nspec :=
  repeat match goal with
  | |- context [N ?v ?l ?r] =>
    lazymatch l with context [N _ _ _] => fail | _ => lazymatch r with context [N _ _ _] => fail | _ => idtac end end;
    let H1 := fresh "O" in let H2 := fresh "EL" in let t := fresh "t" in
    destruct (N_spec v l r) as [H1 H2]; [assumption|assumption|];
    set (t := N v l r) in *; clearbody t
  end.

Lemma T'_spec v l r : ok l -> ok r ->
  exists t, T' v l r = Ret t /\ ok t /\ elements t = elements l ++ v :: elements r.
Proof.
  intros Hl Hr.
  assert (SL : forall b n y z, r = T b n y z -> exists t, single_L v l r = Ret t /\ ok t /\ elements t = elements l ++ v :: elements r).
  { intros b n y z ->. destruct Hr as (_ & Hy & Hz). eexists. split; [reflexivity|]. nspec.
    split; [assumption|]. rewrite EL0, EL. cbn. now rewrite <- app_assoc. }
  assert (SR : forall b n y z, l = T b n y z -> exists t, single_R v l r = Ret t /\ ok t /\ elements t = elements l ++ v :: elements r).
  { intros b n y z ->. destruct Hl as (_ & Hy & Hz). eexists. split; [reflexivity|]. nspec.
    split; [assumption|]. rewrite EL0, EL. cbn. now rewrite <- app_assoc. }
  assert (DL : forall c n b m x y z, r = T c n (T b m x y) z -> exists t, double_L v l r = Ret t /\ ok t /\ elements t = elements l ++ v :: elements r).
  { intros c n b m x y z ->. destruct Hr as (_ & (_ & Hx & Hy) & Hz). eexists. split; [reflexivity|]. nspec.
    split; [assumption|]. rewrite EL1, EL0, EL. cbn. repeat (rewrite <- app_assoc; cbn). reflexivity. }
  assert (DR : forall a n w b m x y, l = T a n w (T b m x y) -> exists t, double_R v l r = Ret t /\ ok t /\ elements t = elements l ++ v :: elements r).
  { intros a n w b m x y ->. destruct Hl as (_ & Hw & (_ & Hx & Hy)). eexists. split; [reflexivity|]. nspec.
    split; [assumption|]. rewrite EL1, EL0, EL. cbn. repeat (rewrite <- app_assoc; cbn). reflexivity. }
  destruct l as [|lv ln ll lr], r as [|rv rn rl rr].
  - eexists. split; [reflexivity|]. repeat split.
  - destruct rl as [|? ? ? ?], rr as [|? ? ? ?]; cbn [T'].
    + eexists. split; [reflexivity|]. split; [|reflexivity]. split; [|auto]. reflexivity.
    + eauto.
    + eauto.
    + destruct (_ <? _); eauto.
  - destruct ll as [|? ? ? ?], lr as [|? ? ? ?]; cbn [T'].
    + eexists. split; [reflexivity|]. split; [|reflexivity]. split; [|auto]. reflexivity.
    + eauto.
    + eauto.
    + destruct (_ >? _); eauto.
  - assert (Main : (exists t, (if rn >=? wt ln then
      if treeSize rl <? treeSize rr then single_L v (T lv ln ll lr) (T rv rn rl rr) else double_L v (T lv ln ll lr) (T rv rn rl rr)
      else if ln >=? wt rn then
      if treeSize lr <? treeSize ll then single_R v (T lv ln ll lr) (T rv rn rl rr) else double_R v (T lv ln ll lr) (T rv rn rl rr)
      else Ret (T v (ln + rn + 1) (T lv ln ll lr) (T rv rn rl rr))) = Ret t
      /\ ok t /\ elements t = elements (T lv ln ll lr) ++ v :: elements (T rv rn rl rr))).
    { pose proof Hl as (L1 & L2 & L3). pose proof Hr as (R1 & R2 & R3).
      cbn [elements] in L1, R1. rewrite app_length in L1, R1. cbn [length] in L1, R1.
      rewrite (ok_size _ L2), (ok_size _ L3), (ok_size _ R2), (ok_size _ R3).
      unfold wt. destruct (rn >=? 3 * ln) eqn:C1.
      - destruct (Z.of_nat (length (elements rl)) <? Z.of_nat (length (elements rr))) eqn:C2; [eauto|].
        destruct rl as [|b m x y]; [cbn [elements length] in *; lia|]. eauto.
      - destruct (ln >=? 3 * rn) eqn:C3.
        + destruct (Z.of_nat (length (elements lr)) <? Z.of_nat (length (elements ll))) eqn:C2; [eauto|].
          destruct lr as [|b m x y]; [cbn [elements length] in *; lia|]. eauto.
        + eexists. split; [reflexivity|]. split; [|reflexivity]. split; [|auto].
          cbn [elements]. rewrite !app_length. cbn [length]. rewrite !app_length. cbn [length]. lia. }
    destruct ll as [|? ? ? ?], lr as [|? ? ? ?]; exact Main.
Qed.

Lemma min_delmin_spec t : ok t -> match elements t with
  | [] => True
  | x :: rest => min t = Ret x /\ exists t', delmin t = Ret t' /\ ok t' /\ elements t' = rest
  end.
Proof.
  induction t as [|v n l IHl r IHr]; intros H; [exact I|]. destruct H as (_ & Hl & Hr).
  destruct l as [|lv ln ll lr].
  - cbn. split; [reflexivity|]. eauto.
  - specialize (IHl Hl). cbn [elements] in *.
    destruct (elements ll ++ lv :: elements lr) as [|x rest] eqn:E; [now destruct (elements ll)|].
    destruct IHl as (M & t' & D & O & EL). cbn [Datatypes.app]. split; [exact M|].
    destruct (T'_spec v t' r O Hr) as (t2 & E2 & O2 & EL2). exists t2.
    split; [|split; [assumption|now rewrite EL2, EL]].
    transitivity (do l' <- delmin (T lv ln ll lr); T' v l' r); [reflexivity|]. rewrite D. exact E2.
Qed.

Lemma delete'_spec l r : ok l -> ok r ->
  exists t, delete' l r = Ret t /\ ok t /\ elements t = elements l ++ elements r.
Proof.
  intros Hl Hr. destruct l as [|lv ln ll lr]; [cbn; eauto|].
  destruct r as [|rv rn rl rr]; [cbn; rewrite app_nil_r; eauto|].
  pose proof (min_delmin_spec _ Hr) as M.
  destruct (elements (T rv rn rl rr)) as [|x rest] eqn:E; [cbn in E; now destruct (elements rl)|].
  destruct M as (M & t' & D & O & EL).
  change (delete' (T lv ln ll lr) (T rv rn rl rr)) with
    (do m <- min (T rv rn rl rr); do r' <- delmin (T rv rn rl rr); T' m (T lv ln ll lr) r').
  rewrite M, D. cbn [bind]. rewrite <- EL. now apply T'_spec.
Qed.

Lemma d2l_spec t : forall res, d2l t res = elements t ++ res.
Proof. induction t as [|v n l IHl r IHr]; intros res; cbn; [reflexivity|]. now rewrite IHl, IHr, <- app_assoc. Qed.
Lemma apply_spec S (f : A -> S -> S) t : forall s, apply f t s = fold_left (fun s x => f x s) (elements t) s.
Proof. induction t as [|v n l IHl r IHr]; intros s; cbn; [reflexivity|]. now rewrite IHr, IHl, fold_left_app. Qed.
Lemma revapply_spec S (f : A -> S -> S) t : forall s, revapply f t s = fold_left (fun s x => f x s) (rev (elements t)) s.
Proof.
  induction t as [|v n l IHl r IHr]; intros s; cbn; [reflexivity|].
  rewrite IHl, IHr, rev_app_distr. cbn. rewrite <- app_assoc. cbn. rewrite fold_left_app. reflexivity.
Qed.
Lemma foldrt_spec B (f : A -> B -> B) t : forall b, foldrt f t b = fold_right f b (elements t).
Proof. induction t as [|v n l IHl r IHr]; intros s; cbn; [reflexivity|]. now rewrite IHr, IHl, fold_right_app. Qed.
Lemma foldlt_spec B (f : A -> B -> B) t : forall b, foldlt f t b = fold_left (fun b x => f x b) (elements t) b.
Proof. induction t as [|v n l IHl r IHr]; intros s; cbn; [reflexivity|]. now rewrite IHr, IHl, fold_left_app. Qed.
End Wb.
