(** * A measure of what is still unbound *)

From Coq Require Import ZArith List Bool Permutation Sorted Lia Arith.
From Verif Require Import Unify_Model Unify_Spec Unify_Base Unify_Sol Unify_Norm.
Import ListNotations.
Open Scope nat_scope.

Fixpoint sumn (f : nat -> nat) (n : nat) : nat :=
  match n with O => O | S n => sumn f n + f n end.

Lemma sumn_le f g n : (forall i, i < n -> f i <= g i) -> sumn f n <= sumn g n.
Proof.
  induction n as [|n IH]; intros H; cbn; [lia|]. pose proof (H n (Nat.lt_succ_diag_r n)).
  assert (sumn f n <= sumn g n) by (apply IH; intros; apply H; lia). lia.
Qed.

Lemma sumn_ext f g n : (forall i, i < n -> f i = g i) -> sumn f n = sumn g n.
Proof.
  induction n as [|n IH]; intros H; cbn; [lia|]. rewrite (H n) by lia. rewrite IH by (intros; apply H; lia). reflexivity.
Qed.

(** The sum changes by what changes at one place. *)
Lemma sumn_at f g n j : j < n -> (forall i, i < n -> i <> j -> f i <= g i) ->
  sumn f n + g j <= sumn g n + f j.
Proof.
  induction n as [|n IH]; intros B H; [lia|]. cbn. destruct (Nat.eq_dec j n) as [->|N].
  - assert (sumn f n <= sumn g n) by (apply sumn_le; intros; apply H; lia). lia.
  - pose proof (H n (Nat.lt_succ_diag_r n) (not_eq_sym N)).
    assert (sumn f n + g j <= sumn g n + f j) by (apply IH; [lia|intros; apply H; lia]). lia.
Qed.

Definition inb (l : lab) (X : list lab) : bool := if in_dec lab_dec l X then true else false.
Definition cnt (Lam X : list lab) : nat := length (filter (fun l => negb (inb l X)) Lam).

Lemma inb_true l X : inb l X = true <-> In l X.
Proof. unfold inb. destruct (in_dec lab_dec l X); split; auto; discriminate. Qed.

Lemma cnt_le Lam X Y : (forall l, In l X -> In l Y) -> cnt Lam Y <= cnt Lam X.
Proof.
  intros H. unfold cnt. induction Lam as [|l m IH]; cbn; [lia|].
  destruct (inb l X) eqn:A, (inb l Y) eqn:B; cbn; try lia.
  apply inb_true, H, inb_true in A. congruence.
Qed.

Lemma cnt_lt Lam X l : In l Lam -> ~ In l X -> cnt Lam (l :: X) < cnt Lam X.
Proof.
  intros J N. unfold cnt. induction Lam as [|x m IH]; [destruct J|].
  assert (LE : cnt m (l :: X) <= cnt m X) by (apply cnt_le; intros; right; assumption). unfold cnt in LE.
  assert (IHm : In l m -> length (filter (fun l0 => negb (inb l0 (l :: X))) m) < length (filter (fun l0 => negb (inb l0 X)) m)).
  { intros K. apply IH, K. }
  cbn [filter]. destruct (inb x X) eqn:A, (inb x (l :: X)) eqn:B; cbn [negb length].
  - destruct J as [->|J]; [apply inb_true in A; contradiction|auto].
  - apply inb_true in A. assert (In x (l :: X)) by (right; exact A). apply inb_true in H. congruence.
  - lia.
  - destruct J as [->|J]; [|specialize (IHm J); lia].
    assert (In l (l :: X)) by (left; reflexivity). apply inb_true in H. congruence.
Qed.

Definition vt (h : heap) (v : nat) : nat :=
  match nth_error (vs h) v with
  | Some c => match tvKind c with NoLink => 1 | _ => 0 end
  | None => 0
  end.
Definition wt (Lam : list lab) (L : nat -> list lab) (h : heap) (w : nat) : nat :=
  match nth_error (ws h) w with
  | Some (VARrow _ _ _) => S (cnt Lam (L w))
  | _ => 0
  end.
Definition mu (Lam : list lab) (L : nat -> list lab) (h : heap) : nat :=
  2 * sumn (wt Lam L h) (length (ws h)) + sumn (vt h) (length (vs h)).

(** All labels are in [Lam]. *)
Definition Lb (Lam : list lab) (L : nat -> list lab) (h : heap) : Prop :=
  forall w, w < length (ws h) -> incl (L w) Lam.

(** Nothing gets unbound. *)
Definition nonew (h h' : heap) : Prop :=
  length (vs h') = length (vs h) /\ length (ws h') = length (ws h) /\
  (forall v c', nth_error (vs h') v = Some c' -> tvKind c' = NoLink ->
     exists c, nth_error (vs h) v = Some c /\ tvKind c = NoLink) /\
  (forall w e i l, nth_error (ws h') w = Some (VARrow e i l) -> exists e' i' l', nth_error (ws h) w = Some (VARrow e' i' l')).

Lemma nonew_refl h : nonew h h.
Proof. repeat split; eauto. Qed.
Lemma nonew_trans a b c : nonew a b -> nonew b c -> nonew a c.
Proof.
  intros (A1 & A2 & A3 & A4) (B1 & B2 & B3 & B4). repeat split; try congruence.
  - intros v c' E K. destruct (B3 _ _ E K) as (c1 & E1 & K1). eauto.
  - intros w e i l E. destruct (B4 _ _ _ _ E) as (e1 & i1 & l1 & E1). eauto.
Qed.

Lemma nonew_vt h h' v : nonew h h' -> vt h' v <= vt h v.
Proof.
  intros (_ & _ & A & _). unfold vt. destruct (nth_error (vs h') v) as [c|] eqn:E; [|lia].
  destruct (tvKind c) eqn:K; try lia. destruct (A _ _ E K) as (c1 & -> & ->). lia.
Qed.
Lemma nonew_wt Lam L h h' w : nonew h h' -> wt Lam L h' w <= wt Lam L h w.
Proof.
  intros (_ & _ & _ & A). unfold wt. destruct (nth_error (ws h') w) as [[]|] eqn:E; try lia.
  destruct (A _ _ _ _ E) as (e & i & l & ->). lia.
Qed.

Lemma nonew_mu Lam L h h' : nonew h h' -> mu Lam L h' <= mu Lam L h.
Proof.
  intros N. pose proof N as (A & B & _). unfold mu. rewrite A, B.
  assert (sumn (wt Lam L h') (length (ws h)) <= sumn (wt Lam L h) (length (ws h)))
    by (apply sumn_le; intros; apply nonew_wt, N).
  assert (sumn (vt h') (length (vs h)) <= sumn (vt h) (length (vs h)))
    by (apply sumn_le; intros; apply nonew_vt, N). lia.
Qed.

(** Binding a variable. *)
Lemma mu_link Lam L h v c c' : nth_error (vs h) v = Some c -> tvKind c = NoLink -> tvKind c' <> NoLink ->
  mu Lam L (upd_tv h v c') < mu Lam L h.
Proof.
  intros E K K'. unfold mu. cbn [ws vs upd_tv]. rewrite set_nth_len. pose proof (nth_lt _ _ _ E) as B.
  assert (X : sumn (wt Lam L (upd_tv h v c')) (length (ws h)) = sumn (wt Lam L h) (length (ws h)))
    by reflexivity.
  assert (Y : sumn (vt (upd_tv h v c')) (length (vs h)) + vt h v <= sumn (vt h) (length (vs h)) + vt (upd_tv h v c') v).
  { apply sumn_at; [exact B|]. intros i _ N. unfold vt. cbn. rewrite set_nth_other by auto. lia. }
  unfold vt at 2 4 in Y. cbn in Y. rewrite set_nth_same in Y by exact B. rewrite E, K in Y.
  destruct (tvKind c'); try congruence; cbn in Y; lia.
Qed.

(** Binding a row. *)
Lemma mu_row Lam L h w e i l k : nth_error (ws h) w = Some (VARrow e i l) ->
  (forall e' i' l', k <> VARrow e' i' l') -> mu Lam L (upd_row h w k) < mu Lam L h.
Proof.
  intros E K. unfold mu. cbn [ws vs upd_row]. rewrite set_nth_len. pose proof (nth_lt _ _ _ E) as B.
  assert (X : sumn (vt (upd_row h w k)) (length (vs h)) = sumn (vt h) (length (vs h))) by reflexivity.
  assert (Y : sumn (wt Lam L (upd_row h w k)) (length (ws h)) + wt Lam L h w <= sumn (wt Lam L h) (length (ws h)) + wt Lam L (upd_row h w k) w).
  { apply sumn_at; [exact B|]. intros j _ N. unfold wt. cbn. rewrite set_nth_other by auto. lia. }
  unfold wt at 2 4 in Y. cbn in Y. rewrite set_nth_same in Y by exact B. rewrite E in Y.
  destruct k as [|e' i' l'| |]; try lia. destruct (K _ _ _ eq_refl).
Qed.

Section W.
Variable G : nat -> tninfo.

Lemma comp_nonew L h h' : Comp G L h h' -> nonew h h'.
Proof.
  intros (_ & (A & B & C & S & S') & _). split; [exact A|]. rewrite C. split; [reflexivity|]. split; eauto.
Qed.
Lemma comp_nonew' L h h' : Comp G L h h' -> nonew h' h.
Proof.
  intros (_ & (A & B & C & S & S') & _). split; [auto|]. rewrite C. split; [reflexivity|]. split; eauto.
Qed.

(** Either something has been bound, or only solved cells have been rewritten. *)
Definition WW (L : nat -> list lab) (h : heap) (L' : nat -> list lab) (h' : heap) : Prop :=
  forall Lam, Lb Lam L h -> Lb Lam L' h' /\ (mu Lam L' h' < mu Lam L h \/ (L' = L /\ Comp G L h h')).

Lemma comp_mu Lam L h h' : Comp G L h h' -> mu Lam L h' = mu Lam L h.
Proof.
  intros C. pose proof (nonew_mu Lam L _ _ (comp_nonew _ _ _ C)). pose proof (nonew_mu Lam L _ _ (comp_nonew' _ _ _ C)). lia.
Qed.

Lemma comp_Lb Lam L h h' : Comp G L h h' -> Lb Lam L h -> Lb Lam L h'.
Proof. intros (_ & (_ & _ & E & _) & _) B w. rewrite E. apply B. Qed.

Lemma WW_comp L h h' : Comp G L h h' -> WW L h L h'.
Proof. intros C Lam B. split; [exact (comp_Lb _ _ _ _ C B)|]. right. auto. Qed.

Lemma WW_trans L h L1 h1 L2 h2 : WW L h L1 h1 -> WW L1 h1 L2 h2 -> WW L h L2 h2.
Proof.
  intros A B Lam H. destruct (A Lam H) as [H1 A1]. destruct (B Lam H1) as [H2 B1]. split; [exact H2|].
  destruct A1 as [A1|[-> A1]], B1 as [B1|[-> B1]].
  - left. lia.
  - left. rewrite (comp_mu _ _ _ _ B1). exact A1.
  - left. rewrite (comp_mu _ _ _ _ A1) in B1. exact B1.
  - right. split; [reflexivity|]. eapply comp_trans; eauto.
Qed.

Lemma WW_refl L h : inv G L h -> WW L h L h.
Proof. intros I. apply WW_comp, comp_refl, I. Qed.

Lemma WW_less L h h' : length (ws h') = length (ws h) -> (forall Lam, mu Lam L h' < mu Lam L h) -> WW L h L h'.
Proof. intros E M Lam B. split; [|left; apply M]. intros w. rewrite E. apply B. Qed.
End W.
