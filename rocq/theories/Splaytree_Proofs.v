(** Proofs about splay trees and the store. *)
From Coq Require Import Sorting.Sorted Sorting.Permutation.
From Verif Require Import Base OrderSpec FinMap Splaytree_Model.

Section Splay.
Context {A : Type}.
Notation tree := (splay_tree A).

Fixpoint elements (t : tree) : list A :=
  match t with SplayNil => [] | SplayObj v l r => elements l ++ v :: elements r end.
Fixpoint size (t : tree) : nat :=
  match t with SplayNil => O | SplayObj _ l r => S (size l + size r) end.

(** [compf] first answers Lt, then at most once Eq, then Gt *)
Definition mono (compf : A -> comparison) (l : list A) : Prop :=
  StronglySorted (fun x y => compf x <> Lt -> compf y = Gt) l.
Lemma ss_app (P : A -> A -> Prop) l1 l2 : StronglySorted P (l1 ++ l2) ->
  StronglySorted P l1 /\ StronglySorted P l2 /\ (forall x y, In x l1 -> In y l2 -> P x y).
Proof.
  induction l1 as [|a l1 IH]; cbn; intros H; [repeat split; [constructor|assumption|intros ? ? []]|].
  inversion H as [|? ? H1 H2]; subst. destruct (IH H1) as (I1 & I2 & I3). apply Forall_app in H2 as [H2 H3].
  split; [now constructor|]. split; [assumption|]. intros x y [<-|Hx] Hy; [|auto].
  rewrite Forall_forall in H3. auto.
Qed.
Lemma mono_mid compf l v r : mono compf (l ++ v :: r) ->
  mono compf l /\ mono compf r /\ (forall x, In x l -> compf v <> Gt -> compf x = Lt) /\
  (forall x, In x r -> compf v <> Lt -> compf x = Gt).
Proof.
  intros H. apply ss_app in H as (H1 & H2 & H3). inversion H2 as [|? ? H4 H5]; subst. rewrite Forall_forall in H5.
  repeat split; auto. intros x Hx Hv. destruct (compf x) eqn:E; auto;
    exfalso; apply Hv; apply (H3 x v); auto; try (now left); congruence.
Qed.

Definition ans_ok (compf : A -> comparison) (t : tree) (r : ans_t A * tree * tree) : Prop :=
  let '(a, L, R) := r in
  match a with
  | No => t = SplayNil
  | AEq v | ALt v | AGt v =>
    elements t = elements L ++ v :: elements R /\
    compf v = match a with AEq _ => Eq | ALt _ => Lt | _ => Gt end /\
    (forall x, In x (elements L) -> compf x = Lt) /\ (forall x, In x (elements R) -> compf x = Gt)
  end.

Ltac lists_eq := cbn [elements]; repeat (rewrite <- ?app_assoc; cbn [List.app]); congruence.

Lemma adj_spec compf n : forall t, (size t <= n)%nat -> mono compf (elements t) -> ans_ok compf t (adj compf t).
Proof.
  induction n as [|n IH]; intros t Hs M; (destruct t as [v l r|]; [|reflexivity]); cbn [size] in Hs; [lia|].
  cbn [adj]. pose proof M as M'. cbn [elements] in M'. apply mono_mid in M' as (Ml & Mr & Hl & Hr).
  destruct (compf v) eqn:Ev.
  - cbn [ans_ok elements]. repeat split; auto; intros x Hx; [apply Hl|apply Hr]; auto; congruence.
  - (* Lt *) assert (Hl' : forall x, In x (elements l) -> compf x = Lt) by (intros; apply Hl; auto; congruence).
    clear Hl Hr Ml. destruct r as [v' l' r'|].
    2:{ cbn [ans_ok elements]. repeat split; auto. intros x []. }
    cbn [elements] in Mr. apply mono_mid in Mr as (Ml' & Mr' & Hl2 & Hr2). cbn [size] in Hs.
    destruct (compf v') eqn:Ev'.
    + cbn [ans_ok elements]. split; [lists_eq|]. split; [assumption|]. split.
      * intros x Hx. apply in_app_or in Hx as [Hx|[<-|Hx]]; auto. apply Hl2; auto. congruence.
      * intros x Hx. apply Hr2; auto. congruence.
    + destruct r' as [v'' l'' r''|] eqn:Er'.
      * rewrite <- Er' in *. specialize (IH r' ltac:(lia) Mr').
        destruct (adj compf r') as [[a L] R]. cbn [ans_ok] in *. destruct a; [congruence| | | ];
          destruct IH as (I1 & I2 & I3 & I4); (split; [cbn [elements]; rewrite I1; lists_eq|]; split; [assumption|]; split; [|assumption]);
          cbn [elements]; intros x Hx; apply in_app_or in Hx as [Hx|[<-|Hx]]; auto;
          apply in_app_or in Hx as [Hx|[<-|Hx]]; auto; apply Hl2; auto; congruence.
      * cbn [ans_ok elements]. split; [lists_eq|]. split; [assumption|]. split; [|intros x []].
        intros x Hx. apply in_app_or in Hx as [Hx|[<-|Hx]]; auto. apply Hl2; auto. congruence.
    + destruct l' as [v'' l'' r''|] eqn:El'.
      * rewrite <- El' in *. specialize (IH l' ltac:(lia) Ml').
        destruct (adj compf l') as [[a L] R]. cbn [ans_ok] in *. destruct a; [congruence| | | ];
          destruct IH as (I1 & I2 & I3 & I4); (split; [cbn [elements]; rewrite I1; lists_eq|]; split; [assumption|]; split);
          cbn [elements]; intros x Hx; apply in_app_or in Hx as [Hx|[<-|Hx]]; auto; apply Hr2; auto; congruence.
      * cbn [ans_ok elements]. split; [lists_eq|]. split; [assumption|]. split.
        -- intros x Hx. apply in_app_or in Hx as [Hx|[<-|[]]]; auto.
        -- intros x Hx. apply Hr2; auto. congruence.
  - (* Gt *) assert (Hr' : forall x, In x (elements r) -> compf x = Gt) by (intros; apply Hr; auto; congruence).
    clear Hl Hr Mr. destruct l as [v' l' r'|].
    2:{ cbn [ans_ok elements]. repeat split; auto. intros x []. }
    cbn [elements] in Ml. apply mono_mid in Ml as (Ml' & Mr' & Hl2 & Hr2). cbn [size] in Hs.
    destruct (compf v') eqn:Ev'.
    + cbn [ans_ok elements]. split; [lists_eq|]. split; [assumption|]. split.
      * intros x Hx. apply Hl2; auto. congruence.
      * intros x Hx. apply in_app_or in Hx as [Hx|[<-|Hx]]; auto. apply Hr2; auto. congruence.
    + destruct r' as [v'' l'' r''|] eqn:Er'.
      * rewrite <- Er' in *. specialize (IH r' ltac:(lia) Mr').
        destruct (adj compf r') as [[a L] R]. cbn [ans_ok] in *. destruct a; [congruence| | | ];
          destruct IH as (I1 & I2 & I3 & I4); (split; [cbn [elements]; rewrite I1; lists_eq|]; split; [assumption|]; split);
          cbn [elements]; intros x Hx; apply in_app_or in Hx as [Hx|[<-|Hx]]; auto; apply Hl2; auto; congruence.
      * cbn [ans_ok elements]. split; [lists_eq|]. split; [assumption|]. split.
        -- intros x Hx. apply Hl2; auto. congruence.
        -- intros x [<-|Hx]; auto.
    + destruct l' as [v'' l'' r''|] eqn:El'.
      * rewrite <- El' in *. specialize (IH l' ltac:(lia) Ml').
        destruct (adj compf l') as [[a L] R]. cbn [ans_ok] in *. destruct a; [congruence| | | ];
          destruct IH as (I1 & I2 & I3 & I4); (split; [cbn [elements]; rewrite I1; lists_eq|]; split; [assumption|]; split; [assumption|]);
          cbn [elements]; intros x Hx; apply in_app_or in Hx as [Hx|[<-|Hx]]; auto;
          apply in_app_or in Hx as [Hx|[<-|Hx]]; auto; apply Hr2; auto; congruence.
      * cbn [ans_ok elements]. split; [lists_eq|]. split; [assumption|]. split; [intros x []|].
        intros x Hx. apply in_app_or in Hx as [Hx|[<-|Hx]]; auto. apply Hr2; auto. congruence.
Qed.

Lemma splay_Nil compf : splay compf (SplayNil : tree) = (Gt, SplayNil).
Proof. reflexivity. Qed.
(** splaying a nonempty tree brings to the root an element where the search ends *)
Lemma splay_spec compf t : mono compf (elements t) ->
  (t = SplayNil /\ splay compf t = (Gt, SplayNil)) \/
  exists v L R, splay compf t = (compf v, SplayObj v L R) /\ elements t = elements L ++ v :: elements R /\
    (forall x, In x (elements L) -> compf x = Lt) /\ (forall x, In x (elements R) -> compf x = Gt).
Proof.
  intros M. pose proof (adj_spec compf (size t) t (le_n _) M) as H. unfold splay.
  destruct (adj compf t) as [[a L] R]. cbn [ans_ok] in H.
  destruct a as [|v|v|v]; [now left| | |]; right; exists v, L, R;
    destruct H as (I1 & I2 & I3 & I4); rewrite I2; auto.
Qed.

Lemma lrot_spec v (l r : tree) : exists v' l', lrot v l r = SplayObj v' l' SplayNil /\
  elements l ++ v :: elements r = elements l' ++ [v'].
Proof.
  revert v l. induction r as [v' l' IHl' r' IHr'|]; intros v l; [|exists v, l; auto].
  cbn [lrot]. destruct (IHr' v' (SplayObj v l l')) as (v2 & l2 & E1 & E2). exists v2, l2. split; [assumption|].
  rewrite <- E2. lists_eq.
Qed.
Lemma join_spec (l r : tree) : elements (join l r) = elements l ++ elements r.
Proof.
  destruct l as [v1 l1 r1|]; [|now destruct r]. destruct r as [v2 l2 r2|]; [|cbn; now rewrite app_nil_r].
  unfold join, lrotate. destruct (lrot_spec v1 l1 r1) as (v' & l' & E1 & E2). rewrite E1.
  change (elements (SplayObj v1 l1 r1)) with (elements l1 ++ v1 :: elements r1). rewrite E2.
  cbn [elements]. now rewrite <- app_assoc.
Qed.

(** *** with an ordering *)
Context {K : Type} (key : A -> K) (c : K -> K -> comparison) (TP : total_preorder c).
Notation sorted := (StronglySorted (fun x y => c (key x) (key y) = Lt)).
Lemma sorted_mono k l : sorted l -> mono (fun x => c (key x) k) l.
Proof.
  induction 1 as [|x l S IH F]; [constructor|]. constructor; [assumption|].
  eapply Forall_impl; [|exact F]. cbn. intros y Hy Hx. apply (tp_gt_lt c TP).
  apply (tp_le_lt_trans c TP) with (key x); [|assumption]. now apply tp_total.
Qed.
Lemma splay_sorted k t : sorted (elements t) ->
  (t = SplayNil /\ splay (fun x => c (key x) k) t = (Gt, SplayNil)) \/
  exists v L R, splay (fun x => c (key x) k) t = (c (key v) k, SplayObj v L R) /\
    elements t = elements L ++ v :: elements R /\ klt key c (elements L) k /\ kgt key c k (elements R).
Proof.
  intros S. destruct (splay_spec _ t (sorted_mono k _ S)) as [H|(v & L & R & E1 & E2 & HL & HR)]; [now left|].
  right. exists v, L, R. unfold klt, kgt. rewrite !Forall_forall. repeat split; auto.
  intros x Hx. apply (tp_gt_lt c TP). auto.
Qed.
Lemma sins_kgt e l : kgt key c (key e) l -> sins key c e l = e :: l.
Proof. destruct l as [|x l]; [reflexivity|]. intros H. inversion H; subst. cbn. now rewrite H2. Qed.
Lemma sins_klt_end e l : klt key c l (key e) -> sins key c e l = l ++ [e].
Proof. intros H. rewrite <- (app_nil_r l) at 1. now rewrite (sins_klt key c TP). Qed.
End Splay.

(** *** the store *)
(** [le st st']: all cells of [st] are still in [st'], and hold trees with the same listing *)
Definition st_le {A} (st st' : store A) : Prop :=
  forall r t, deref st r = Ret t -> exists t', deref st' r = Ret t' /\ elements t' = elements t.
Lemma st_le_refl {A} (st : store A) : st_le st st.
Proof. intros r t H. eauto. Qed.
Lemma st_le_trans {A} (s1 s2 s3 : store A) : st_le s1 s2 -> st_le s2 s3 -> st_le s1 s3.
Proof.
  intros H1 H2 r t H. destruct (H1 r t H) as (t' & E & L). destruct (H2 r t' E) as (t'' & E' & L').
  exists t''. split; [assumption|congruence].
Qed.
Lemma deref_new {A} (st : store A) t : deref (st ++ [t]) (length st) = Ret t.
Proof. unfold deref. rewrite nth_error_app2, Nat.sub_diag by lia. reflexivity. Qed.
Lemma new_le {A} (st : store A) t : st_le st (st ++ [t]).
Proof.
  intros r u H. exists u. split; [|reflexivity]. unfold deref in *.
  destruct (nth_error st r) eqn:E; [|discriminate]. rewrite nth_error_app1; [now rewrite E|].
  apply nth_error_Some. congruence.
Qed.
Lemma deref_assign {A} (st : store A) r t r' : (exists u, deref st r = Ret u) ->
  deref (assign st r t) r' = if Nat.eqb r r' then Ret t else deref st r'.
Proof.
  revert r r'. induction st as [|x st IH]; intros r r' [u Hu].
  - unfold deref in Hu. destruct r; discriminate.
  - destruct r as [|r], r' as [|r']; cbn [assign Nat.eqb]; auto.
    unfold deref in *. cbn [nth_error] in *. apply IH. eauto.
Qed.
Lemma put_le {A} (st : store A) r t u : deref st r = Ret u -> elements t = elements u -> st_le st (assign st r t).
Proof.
  intros H E r' t' H'. rewrite deref_assign by eauto. destruct (Nat.eqb_spec r r') as [->|Hne].
  - exists t. split; [reflexivity|congruence].
  - eauto.
Qed.
