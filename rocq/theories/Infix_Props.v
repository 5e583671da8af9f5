(** C45: infix resolution respects precedence and associativity. *)
From Verif Require Import Base Infix_Model.

(** *** Specification *)
Section Spec.
Variables (Obj IdInfo : Type).

(** A juxtaposition is a sequence of operands and infix operators; an operator has an associativity
    (true: left) and a precedence. *)
Inductive token := Arg (o : Obj) | Op (ii : IdInfo) (left : bool) (prec : Z).

(** The trees: applications [a b] of functions to arguments and of operators to two operands. *)
Inductive tree := Leaf (o : Obj) | App (a b : tree) | Inf (ii : IdInfo) (left : bool) (prec : Z) (a b : tree).

(** the sequence a tree is written as *)
Fixpoint written (t : tree) : list token :=
  match t with
  | Leaf o => [Arg o]
  | App a b => written a ++ written b
  | Inf ii l p a b => written a ++ Op ii l p :: written b
  end.

(** a tree may stand to the left of an operator without parentheses if it binds tighter,
    or equally tight and both associate to the left *)
Definition left_of (t : tree) (l : bool) (p : Z) : Prop :=
  match t with
  | Inf _ l' p' _ _ => p < p' \/ (p' = p /\ l' = true /\ l = true)
  | _ => True
  end.
Definition right_of (l : bool) (p : Z) (t : tree) : Prop :=
  match t with
  | Inf _ l' p' _ _ => p < p' \/ (p' = p /\ l' = false /\ l = false)
  | _ => True
  end.

(** the rules: every node admits its subtrees; application binds tightest and to the left *)
Fixpoint correct (t : tree) : Prop :=
  match t with
  | Leaf _ => True
  | App a b => correct a /\ correct b /\ (match a with Inf _ _ _ _ _ => False | _ => True end)
                /\ (match b with Leaf _ => True | _ => False end)
  | Inf _ l p a b => correct a /\ correct b /\ left_of a l p /\ right_of l p b
  end.

(** every operator stands between operands, and there is an operand *)
Fixpoint well_formed (after_operand : bool) (s : list token) : bool :=
  match s with
  | [] => after_operand
  | Arg _ :: s => well_formed true s
  | Op _ _ _ :: s => after_operand && well_formed false s
  end.

(** operators of equal precedence with different associativity meet: nothing between them binds
    less tightly *)
Definition clash (s : list token) : Prop :=
  exists i j ii jj l l' p, (i < j)%nat /\ nth_error s i = Some (Op ii l p) /\ nth_error s j = Some (Op jj l' p) /\ l <> l' /\
    forall k kk lk pk, (i < k < j)%nat -> nth_error s k = Some (Op kk lk pk) -> p <= pk.
End Spec.
Arguments Arg {Obj IdInfo}. Arguments Op {Obj IdInfo}.
Arguments Leaf {Obj IdInfo}. Arguments App {Obj IdInfo}. Arguments Inf {Obj IdInfo}.
Arguments written {Obj IdInfo}. Arguments correct {Obj IdInfo}. Arguments well_formed {Obj IdInfo}. Arguments clash {Obj IdInfo}.
Arguments left_of {Obj IdInfo}. Arguments right_of {Obj IdInfo}.

Section Syntax.
Variables (Obj IdInfo : Type).
Variable pair : Obj -> Obj -> Obj.
Variable asId : Obj -> option IdInfo.
Variable applyId : IdInfo -> Obj -> Obj.
Variable applyObj : Obj -> Obj -> Obj.
Variable statusOfId : IdInfo -> fixity.
(** what an object of the input is, under the fixities in force *)
Definition classify (o : Obj) : token Obj IdInfo :=
  match asId o with
  | None => Arg o
  | Some ii => match statusOfId ii with NONFIXst => Arg o | INFIXst n => Op ii true n | INFIXRst n => Op ii false n end
  end.
(** the syntax object a tree stands for: an operator is applied to the pair of its operands *)
Fixpoint build (t : tree Obj IdInfo) : Obj :=
  match t with
  | Leaf o => o
  | App a b => applyObj (build a) (build b)
  | Inf ii _ _ a b => applyId ii (pair (build a) (build b))
  end.
End Syntax.
Arguments classify {Obj IdInfo}. Arguments build {Obj IdInfo}.

(** *** Proofs: properties of correct trees *)
Section Trees.
Variables (Obj IdInfo : Type).
Notation tree := (tree Obj IdInfo). Notation token := (token Obj IdInfo).

Definition all_ops (P : bool -> Z -> Prop) (s : list token) : Prop := forall ii l p, In (Op ii l p) s -> P l p.
Lemma all_ops_app P s t : all_ops P (s ++ t) <-> all_ops P s /\ all_ops P t.
Proof.
  unfold all_ops. split.
  - intros H. split; intros ii l p I; apply (H ii); apply in_or_app; auto.
  - intros [A B] ii l p I. apply in_app_or in I as [I|I]; [eapply A|eapply B]; eassumption.
Qed.
Lemma all_ops_impl (P Q : bool -> Z -> Prop) s : (forall l p, P l p -> Q l p) -> all_ops P s -> all_ops Q s.
Proof. intros H A ii l p I. apply H. eapply A, I. Qed.

(** no operators below an application *)
Lemma app_no_ops (t : tree) : correct t -> (match t with Inf _ _ _ _ _ => False | _ => True end) -> all_ops (fun _ _ => False) (written t).
Proof.
  induction t as [o|a IHa b IHb|ii l p a IHa b IHb]; intros C N; [|..].
  - intros ii l p [H|[]]. discriminate.
  - destruct C as (Ca & Cb & Na & Nb). cbn [written]. apply all_ops_app. split; [auto|]. destruct b as [o| |]; try contradiction. now apply IHb.
  - contradiction.
Qed.

(** in a correct tree with an operator at the root, all operators bind at least as tightly, and those
    that bind equally tightly associate as the root does *)
Lemma root_min (t : tree) : correct t ->
  match t with Inf _ l p _ _ => all_ops (fun l' p' => p < p' \/ (p' = p /\ l' = l)) (written t) | _ => True end.
Proof.
  induction t as [o|a IHa b IHb|ii l p a IHa b IHb]; intros C; [exact I|exact I|].
  destruct C as (Ca & Cb & La & Rb). cbn [written]. apply all_ops_app. split.
  - destruct a as [o|a1 a2|ja la pa a1 a2].
    + apply all_ops_impl with (fun _ _ => False); [tauto|now apply app_no_ops].
    + apply all_ops_impl with (fun _ _ => False); [tauto|now apply app_no_ops].
    + apply all_ops_impl with (2 := IHa Ca). intros l' p' H. cbn in La.
      destruct La as [La|(E1 & E2 & E3)]; [lia|]. subst. tauto.
  - intros jj l' p' [H|H]; [injection H as <- <- <-; right; auto|]. revert H.
    destruct b as [o|b1 b2|jb lb pb b1 b2].
    + intros H. now apply (app_no_ops (Leaf o) Cb I) in H.
    + intros H. now apply (app_no_ops (App b1 b2) Cb I) in H.
    + intros H. apply (IHb Cb) in H. cbn in Rb. destruct Rb as [Rb|(E1 & E2 & E3)]; [lia|]. subst. tauto.
Qed.
Lemma left_strict (a : tree) l p : correct a -> left_of a l p ->
  all_ops (fun l' p' => p < p' \/ (p' = p /\ l' = true /\ l = true)) (written a).
Proof.
  intros C L. destruct a as [o|a1 a2|ja la pa a1 a2].
  - apply all_ops_impl with (fun _ _ => False); [tauto|now apply app_no_ops].
  - apply all_ops_impl with (fun _ _ => False); [tauto|now apply app_no_ops].
  - apply all_ops_impl with (2 := root_min _ C). intros l' p' H. cbn in L.
    destruct L as [L|(E1 & E2 & E3)]; [lia|]. subst. tauto.
Qed.
Lemma right_strict (a : tree) l p : correct a -> right_of l p a ->
  all_ops (fun l' p' => p < p' \/ (p' = p /\ l' = false /\ l = false)) (written a).
Proof.
  intros C L. destruct a as [o|a1 a2|ja la pa a1 a2].
  - apply all_ops_impl with (fun _ _ => False); [tauto|now apply app_no_ops].
  - apply all_ops_impl with (fun _ _ => False); [tauto|now apply app_no_ops].
  - apply all_ops_impl with (2 := root_min _ C). intros l' p' H. cbn in L.
    destruct L as [L|(E1 & E2 & E3)]; [lia|]. subst. tauto.
Qed.

(** splitting a list at two places *)
Lemma split_cases {A} (s1 : list A) x r1 s2 y r2 : s1 ++ x :: r1 = s2 ++ y :: r2 ->
  (s1 = s2 /\ x = y /\ r1 = r2) \/ (In y r1 /\ In x s2) \/ (In x r2 /\ In y s1).
Proof.
  revert s2. induction s1 as [|a s1 IH]; intros [|b s2] E; cbn in E.
  - injection E as -> ->. auto.
  - injection E as -> ->. right. left. split; [apply in_elt|now left].
  - injection E as -> <-. right. right. split; [apply in_elt|now left].
  - injection E as -> E. destruct (IH s2 E) as [(-> & -> & ->)|[(I1 & I2)|(I1 & I2)]]; [auto| |].
    + right. left. split; [assumption|now right].
    + right. right. split; [assumption|now right].
Qed.

Lemma written_ne (t : tree) : written t <> [].
Proof. destruct t; cbn; try discriminate; intros E; apply app_eq_nil in E as [? E]; [|discriminate]. revert E. induction t2; cbn; try discriminate; intros E; apply app_eq_nil in E as [? E]; [auto|discriminate]. Qed.

(** at most one correct tree *)
Theorem correct_unique : forall t t' : tree, correct t -> correct t' -> written t = written t' -> t = t'.
Proof.
  induction t as [o|a IHa b IHb|ii l p a IHa b IHb]; intros t' C C' E.
  - destruct t' as [o'|a' b'|jj l' p' a' b']; cbn in E.
    + now injection E as ->.
    + pose proof (written_ne a'). pose proof (written_ne b'). destruct (written a') as [|? [|]]; [easy| |discriminate].
      injection E as _ E. now destruct (written b').
    + pose proof (written_ne a'). destruct (written a') as [|? [|]]; [easy|discriminate|discriminate].
  - destruct t' as [o'|a' b'|jj l' p' a' b'].
    + cbn in E. pose proof (written_ne a). pose proof (written_ne b). destruct (written a) as [|? [|]]; [easy| |discriminate].
      injection E as _ E. now destruct (written b).
    + destruct C as (Ca & Cb & Na & Nb), C' as (Ca' & Cb' & Na' & Nb').
      destruct b as [o| |]; try contradiction. destruct b' as [o'| |]; try contradiction.
      cbn in E. apply app_inj_tail in E as [Ea Eb]. injection Eb as ->. f_equal. now apply IHa.
    + pose proof (app_no_ops _ C I) as N. rewrite E in N. exfalso. apply (N jj l' p'). cbn. apply in_elt.
  - destruct t' as [o'|a' b'|jj l' p' a' b'].
    + cbn in E. pose proof (written_ne a). destruct (written a) as [|? [|]]; [easy|discriminate|discriminate].
    + pose proof (app_no_ops _ C' I) as N. rewrite <- E in N. exfalso. apply (N ii l p). cbn. apply in_elt.
    + destruct C as (Ca & Cb & La & Rb), C' as (Ca' & Cb' & La' & Rb'). cbn in E.
      destruct (split_cases _ _ _ _ _ _ E) as [(E1 & E2 & E3)|[(I1 & I2)|(I1 & I2)]].
      * injection E2 as -> -> ->. f_equal; auto.
      * exfalso. apply (right_strict b l p Cb Rb) in I1. apply (left_strict a' l' p' Ca' La') in I2.
        destruct I1 as [I1|(? & ? & ?)], I2 as [I2|(? & ? & ?)]; try lia. congruence.
      * exfalso. apply (right_strict b' l' p' Cb' Rb') in I1. apply (left_strict a l p Ca La) in I2.
        destruct I1 as [I1|(? & ? & ?)], I2 as [I2|(? & ? & ?)]; try lia. congruence.
Qed.

(** a correct tree has no clash *)
Lemma correct_no_clash (t : tree) : correct t -> ~ clash (written t).
Proof.
  induction t as [o|a IHa b IHb|ii l p a IHa b IHb]; intros C (i & j & ki & kj & li & lj & q & Lij & Ei & Ej & Nl & B).
  - cbn in Ej. destruct j as [|[|j]]; cbn in Ej; try discriminate; try lia.
  - apply nth_error_In in Ei. now apply (app_no_ops _ C I) in Ei.
  - pose proof (root_min _ C) as M. destruct C as (Ca & Cb & La & Rb). cbn [written] in Ei, Ej, B, M.
    pose proof (nth_error_In _ _ Ei) as Ii. pose proof (nth_error_In _ _ Ej) as Ij. apply M in Ii, Ij.
    assert (W : forall k, (length (written a) < k)%nat -> nth_error (written a ++ Op ii l p :: written b) k = nth_error (written b) (k - length (written a) - 1)).
    { intros k Hk. rewrite nth_error_app2 by lia. destruct (k - length (written a))%nat as [|m] eqn:Em; [lia|]. cbn [nth_error]. now rewrite Nat.sub_succ, Nat.sub_0_r. }
    destruct (Nat.lt_ge_cases j (length (written a))) as [Lj|Lj].
    + apply (IHa Ca). exists i, j, ki, kj, li, lj, q. rewrite nth_error_app1 in Ei, Ej by lia.
      split; [lia|]. split; [assumption|]. split; [assumption|]. split; [assumption|]. intros k kk lk pk Hk Ek. apply (B k kk lk); [assumption|].
      now rewrite nth_error_app1 by lia.
    + destruct (Nat.lt_ge_cases (length (written a)) i) as [Li|Li].
      * apply (IHb Cb). rewrite W in Ei, Ej by lia.
        exists (i - length (written a) - 1)%nat, (j - length (written a) - 1)%nat, ki, kj, li, lj, q.
        split; [lia|]. split; [assumption|]. split; [assumption|]. split; [assumption|]. intros k kk lk pk Hk Ek.
        apply (B (k + length (written a) + 1)%nat kk lk); [lia|]. rewrite W by lia.
        now replace (k + length (written a) + 1 - length (written a) - 1)%nat with k by lia.
      * assert (R : nth_error (written a ++ Op ii l p :: written b) (length (written a)) = Some (Op ii l p))
          by (rewrite nth_error_app2, Nat.sub_diag by lia; reflexivity).
        destruct (Nat.eq_dec i (length (written a))) as [Ei0|Ni].
        { rewrite Ei0 in Ei. rewrite R in Ei. injection Ei as -> -> ->. destruct Ij as [Ij|[_ ->]]; [lia|now elim Nl]. }
        destruct (Nat.eq_dec j (length (written a))) as [Ej0|Nj].
        { rewrite Ej0 in Ej. rewrite R in Ej. injection Ej as -> -> ->. destruct Ii as [Ii|[_ ->]]; [lia|now elim Nl]. }
        assert (q <= p) as Qp by (apply (B (length (written a)) ii l); [lia|assumption]).
        destruct Ii as [Ii|[_ ->]]; [lia|]. destruct Ij as [Ij|[_ ->]]; [lia|]. now elim Nl.
Qed.
(** ill-formed input: operands and entries are counted *)
Fixpoint balance (after_operand : bool) (s : list token) : Z :=
  match s with
  | [] => 0
  | Arg _ :: s => (if after_operand then 0 else 1) + balance true s
  | Op _ _ _ :: s => -1 + balance false s
  end.
Lemma balance_wf (s : list token) :
  (balance false s <= 1 /\ (balance false s = 1 -> well_formed false s = true)) /\
  (balance true s <= 0 /\ (balance true s = 0 -> well_formed true s = true)).
Proof.
  induction s as [|[o|ii l p] s [[A1 A2] [B1 B2]]]; cbn [balance well_formed andb].
  - repeat split; try lia; auto.
  - split; (split; [lia|]); intros H; apply B2; lia.
  - split; (split; [lia|]); intros H; [lia|apply A2; lia].
Qed.

End Trees.

(** *** Proofs: the resolver *)
Section Run.
Variables (Obj IdInfo : Type).
Variable pair : Obj -> Obj -> Obj.
Variable asId : Obj -> option IdInfo.
Variable applyId : IdInfo -> Obj -> Obj.
Variable applyObj : Obj -> Obj -> Obj.
Variable statusOfId : IdInfo -> fixity.
Notation tree := (tree Obj IdInfo). Notation token := (token Obj IdInfo). Notation entry := (entry IdInfo).
Notation classify := (classify asId statusOfId). Notation build := (build pair applyId applyObj).
Notation resolveInfix := (resolveInfix pair asId applyId applyObj statusOfId).
Notation process := (process Obj IdInfo pair asId applyId applyObj statusOfId).
Notation flushAll := (flushAll Obj IdInfo pair applyId applyObj).
Notation flushHigher := (flushHigher Obj IdInfo pair applyId applyObj).
Notation apply := (apply Obj IdInfo pair applyId applyObj).
Notation assocLeft := (assocLeft IdInfo).

Definition node (e : entry) (a b : tree) : tree :=
  match e with INFIXentry ii n => Inf ii true n a b | INFIXRentry ii n => Inf ii false n a b | APPentry => App a b end.
Definition tok (e : entry) : list token :=
  match e with INFIXentry ii n => [Op ii true n] | INFIXRentry ii n => [Op ii false n] | APPentry => [] end.
(** t may be the left (right) operand of e *)
Definition lok (t : tree) (e : entry) : Prop :=
  match e with INFIXentry _ n => left_of t true n | INFIXRentry _ n => left_of t false n
  | APPentry => match t with Inf _ _ _ _ _ => False | _ => True end end.
Definition rok (e : entry) (t : tree) : Prop :=
  match e with INFIXentry _ n => right_of true n t | INFIXRentry _ n => right_of false n t
  | APPentry => match t with Leaf _ => True | _ => False end end.
(** e' may be above e on the stack *)
Definition above (e e' : entry) : Prop :=
  match e, e' with
  | APPentry, _ => False
  | _, APPentry => True
  | INFIXentry _ n, INFIXentry _ m => n < m
  | INFIXentry _ n, INFIXRentry _ m => n < m
  | INFIXRentry _ n, INFIXentry _ m => n < m
  | INFIXRentry _ n, INFIXRentry _ m => n <= m
  end.

(** the state after a prefix: entries and operands alternate *)
Fixpoint good (stack : list entry) (output : list tree) : Prop :=
  match stack, output with
  | [], [o] => correct o
  | e :: stack, o :: output =>
      correct o /\ rok e o /\ good stack output /\
      (match output with o' :: _ => lok o' e | [] => False end) /\
      (match stack with e' :: _ => above e' e | [] => True end)
  | _, _ => False
  end.
Fixpoint state_tokens (stack : list entry) (output : list tree) : list token :=
  match stack, output with
  | [], [o] => written o
  | e :: stack, o :: output => state_tokens stack output ++ tok e ++ written o
  | _, _ => []
  end.

Lemma node_written e a b : written (node e a b) = written a ++ tok e ++ written b.
Proof. now destruct e. Qed.
Lemma node_correct e a b : correct a -> correct b -> lok a e -> rok e b -> correct (node e a b).
Proof. destruct e; cbn; auto. Qed.
Lemma above_rok e e' a b : above e e' -> rok e (node e' a b).
Proof. destruct e, e'; cbn; try tauto; try lia. Qed.

Lemma apply_map e (o2 o1 : tree) out : apply e (map build (o2 :: o1 :: out)) = Done (map build (node e o1 o2 :: out)).
Proof. now destruct e. Qed.

Lemma flushAll_ok stack : forall output, good stack output ->
  exists t, flushAll stack (map build output) = Done (build t) /\ correct t /\ written t = state_tokens stack output.
Proof.
  induction stack as [|e stack IH]; intros output G.
  - destruct output as [|o [|]]; cbn in G; try contradiction. exists o. cbn. auto.
  - destruct output as [|o output]; cbn in G; [contradiction|]. destruct G as (Co & Ro & G & Lo & Ab).
    destruct output as [|o1 output]; [contradiction|].
    cbn [flushAll Infix_Model.flushAll]. rewrite apply_map. cbn [rbind].
    assert (Co1 : correct o1) by (destruct stack; cbn in G; [now destruct output|tauto]).
    destruct (IH (node e o1 o :: output)) as (t & E & C & W).
    + destruct stack as [|e' stack]; cbn in G |- *.
      * destruct output; [|contradiction]. now apply node_correct.
      * destruct G as (_ & R1 & G & L1 & Ab'). split; [now apply node_correct|]. split; [now apply above_rok|]. auto.
    + exists t. split; [exact E|]. split; [assumption|]. rewrite W.
      destruct stack as [|e' stack]; cbn in G |- *.
      * destruct output; [|contradiction]. now rewrite node_written.
      * destruct output; [tauto|]. rewrite node_written. now rewrite <- !app_assoc.
Qed.

(** comparing the top of the stack with a new entry *)
Definition eprec (e : entry) : option (Z * bool) := match e with INFIXentry _ n => Some (n, true) | INFIXRentry _ n => Some (n, false) | APPentry => None end.
Lemma assocLeft_cases e e' :
  match assocLeft e e' with
  | Done true => forall a b, lok (node e a b) e'
  | Done false => above e e'
  | MixedAssociativity => exists p l l', eprec e = Some (p, l) /\ eprec e' = Some (p, l') /\ l <> l'
  | _ => False
  end.
Proof.
  destruct e as [ii n|ii n|], e' as [jj m|jj m|]; cbn [assocLeft Infix_Model.assocLeft rbind extract]; try (cbn; auto; fail);
  destruct (Z.ltb_spec m n); cbn; try lia; destruct (Z.ltb_spec n m); cbn; try lia.
  - exists n, true, false. assert (n = m) as -> by lia. repeat split; discriminate.
  - exists n, false, true. assert (n = m) as -> by lia. repeat split; discriminate.
Qed.

Lemma tok_prec e p l : eprec e = Some (p, l) -> exists ii, tok e = [Op ii l p].
Proof. destruct e; cbn; intros E; try discriminate; injection E as <- <-; eauto. Qed.

Lemma rok_min e (t : tree) p l : eprec e = Some (p, l) -> correct t -> rok e t -> all_ops Obj IdInfo (fun _ q => p <= q) (written t).
Proof.
  intros E C R. apply all_ops_impl with (fun l' p' => p < p' \/ (p' = p /\ l' = false /\ l = false)); [intros; lia|].
  apply right_strict; [assumption|]. destruct e; cbn in *; try discriminate; injection E as <- <-; assumption.
Qed.

(** a clash within a prefix is a clash *)
Lemma clash_app (s r : list token) : clash s -> clash (s ++ r).
Proof.
  intros (i & j & ki & kj & li & lj & q & Lij & Ei & Ej & Nl & B).
  assert (j < length s)%nat by (apply nth_error_Some; congruence).
  exists i, j, ki, kj, li, lj, q. rewrite !nth_error_app1 by lia. repeat (split; [assumption|]). intros k kk lk pk Hk Ek.
  rewrite nth_error_app1 in Ek by lia. eapply B; eassumption.
Qed.
Lemma clash_between (s m : list token) ii jj l l' p : l <> l' -> all_ops Obj IdInfo (fun _ q => p <= q) m -> clash (s ++ Op ii l p :: m ++ [Op jj l' p]).
Proof.
  intros N A. exists (length s), (length s + 1 + length m)%nat, ii, jj, l, l', p. split; [lia|].
  rewrite nth_error_app2, Nat.sub_diag by lia. split; [reflexivity|].
  assert (W : forall k, (length s < k)%nat -> nth_error (s ++ Op ii l p :: m ++ [Op jj l' p]) k = nth_error (m ++ [Op jj l' p]) (k - length s - 1)).
  { intros k Hk. rewrite nth_error_app2 by lia. destruct (k - length s)%nat as [|x] eqn:Ex; [lia|]. cbn [nth_error]. now rewrite Nat.sub_succ, Nat.sub_0_r. }
  rewrite W by lia. replace (length s + 1 + length m - length s - 1)%nat with (length m) by lia.
  rewrite nth_error_app2, Nat.sub_diag by lia. split; [reflexivity|]. split; [assumption|].
  intros k kk lk pk Hk Ek. rewrite W in Ek by lia. rewrite nth_error_app1 in Ek by lia. apply nth_error_In in Ek. eapply A, Ek.
Qed.

(** the new entry pushed on the flushed stack: e waits for its right operand *)
Definition waiting (e : entry) (stack : list entry) (output : list tree) : Prop :=
  good stack output /\ (match output with o :: _ => lok o e | [] => False end) /\ (match stack with e' :: _ => above e' e | [] => True end).

Lemma flushHigher_ok e stack : forall output, good stack output -> (match output with o :: _ => lok o e | [] => False end) ->
  match flushHigher e stack (map build output) with
  | Done (stack', out') => exists output', out' = map build output' /\ waiting e stack' output' /\ state_tokens stack' output' = state_tokens stack output
  | MixedAssociativity => clash (state_tokens stack output ++ tok e)
  | _ => False
  end.
Proof.
  induction stack as [|top stack IH]; intros output G L.
  - cbn. exists output. repeat split; assumption.
  - cbn [Infix_Model.flushHigher].
    pose proof (assocLeft_cases top e) as A. destruct (assocLeft top e) as [[|]| | |]; cbn [rbind]; try contradiction.
    + destruct output as [|o output]; [contradiction|]. cbn in G. destruct G as (Co & Ro & G & Lo & Ab).
      destruct output as [|o1 output]; [contradiction|]. rewrite apply_map. cbn [rbind].
      assert (Co1 : correct o1) by (destruct stack; cbn in G; [now destruct output|tauto]).
      assert (ST : state_tokens stack (node top o1 o :: output) = state_tokens (top :: stack) (o :: o1 :: output)).
      { destruct stack as [|e' stack]; cbn in G |- *.
        - destruct output; [|contradiction]. now rewrite node_written.
        - destruct output; [tauto|]. rewrite node_written. now rewrite <- !app_assoc. }
      rewrite <- ST. apply IH.
      * destruct stack as [|e' stack]; cbn in G |- *.
        -- destruct output; [|contradiction]. now apply node_correct.
        -- destruct G as (_ & R1 & G & L1 & Ab'). split; [now apply node_correct|]. split; [now apply above_rok|]. auto.
      * apply A.
    + exists output. split; [reflexivity|]. split; [|reflexivity]. split; [assumption|]. split; assumption.
    + destruct A as (p & l & l' & E1 & E2 & N). destruct output as [|o output]; [contradiction|]. cbn in G.
      destruct G as (Co & Ro & G & Lo & Ab). cbn [state_tokens].
      destruct (tok_prec _ _ _ E1) as [ii ->]. destruct (tok_prec _ _ _ E2) as [jj ->].
      rewrite <- !app_assoc. cbn [app]. rewrite <- app_comm_cons || idtac. apply clash_between; [assumption|].
      exact (rok_min top o p l E1 Co Ro).
Qed.

Lemma classify_process fuel o rest stack last output :
  process (S fuel) (o :: rest) stack last output =
  match classify o with
  | Op ii l p => let e := if l then INFIXentry ii p else INFIXRentry ii p in
      rbind (flushHigher e stack output) (fun '(stack', output') => process fuel rest (e :: stack') OPER output')
  | Arg _ => match last with
      | ARG => rbind (flushHigher APPentry stack output) (fun '(stack', output') => process fuel (o :: rest) (APPentry :: stack') OPER output')
      | _ => process fuel rest stack ARG (o :: output) end
  end.
Proof. cbn [Infix_Model.process]. unfold Infix_Props.classify. destruct (asId o) as [ii|]; [|reflexivity]. now destruct (statusOfId ii). Qed.
Lemma classify_arg o x : classify o = Arg x -> x = o.
Proof. unfold Infix_Props.classify. destruct (asId o); [destruct (statusOfId _)|]; intros E; congruence. Qed.

Definition outcome_ok (all : list token) (r : res Obj) : Prop :=
  match r with
  | Done x => exists t, x = build t /\ correct t /\ written t = all
  | MixedAssociativity => clash all
  | _ => False
  end.

(** well-formed input *)
Lemma process_wf fuel : forall input,
  (forall stack output, (2 * length input < fuel)%nat -> good stack output ->
     (match output with o :: _ => match o with Inf _ _ _ _ _ => False | _ => True end | [] => False end) ->
     well_formed true (map classify input) = true ->
     outcome_ok (state_tokens stack output ++ map classify input) (process fuel input stack ARG (map build output))) /\
  (forall e stack output, (2 * length input <= fuel)%nat -> waiting e stack output -> e <> APPentry ->
     well_formed false (map classify input) = true ->
     outcome_ok (state_tokens stack output ++ tok e ++ map classify input) (process fuel input (e :: stack) OPER (map build output))) /\
  (forall o rest stack output, input = o :: rest -> (2 * length input <= fuel)%nat -> waiting APPentry stack output ->
     classify o = Arg o -> well_formed false (map classify input) = true ->
     outcome_ok (state_tokens stack output ++ map classify input) (process fuel input (APPentry :: stack) OPER (map build output))).
Proof.
  induction fuel as [|fuel IH]; intros input.
  { split; [|split]; intros; [lia| |]; destruct input; cbn in *; try lia; discriminate. }
  split; [|split].
  - intros stack output HF G NI WF. destruct input as [|o rest].
    + cbn [Infix_Model.process]. cbn [map]. rewrite app_nil_r.
      destruct (flushAll_ok _ _ G) as (t & E & C & W). rewrite E. exists t. auto.
    + rewrite classify_process. cbn [map]. cbn [map well_formed] in WF. destruct (classify o) as [x|ii l p] eqn:EC.
      * pose proof (classify_arg _ _ EC) as ->.
        assert (L : match output with o :: _ => lok o APPentry | [] => False end) by (destruct output; assumption).
        pose proof (flushHigher_ok APPentry stack output G L) as F.
        destruct (flushHigher APPentry stack (map build output)) as [[stack' out']| | |]; cbn [rbind]; try contradiction.
        -- destruct F as (output' & -> & Wt & ST).
           destruct (IH (o :: rest)) as (_ & _ & H3). rewrite <- ST. change (Arg o) with (Arg (Obj := Obj) (IdInfo := IdInfo) o). rewrite <- EC.
           apply (H3 o rest); [reflexivity|cbn in *; lia|assumption|assumption|]. cbn [map well_formed]. now rewrite EC.
        -- cbn [tok] in F. rewrite app_nil_r in F. now apply clash_app.
      * cbn [andb] in WF. set (e := if l then INFIXentry ii p else INFIXRentry ii p).
        assert (T : tok e = [Op ii l p]) by (unfold e; now destruct l).
        assert (L : match output with o :: _ => lok o e | [] => False end).
        { destruct output as [|o' output]; [assumption|]. destruct o'; try contradiction; unfold e; destruct l; exact I. }
        pose proof (flushHigher_ok e stack output G L) as F. cbv zeta. fold e.
        destruct (flushHigher e stack (map build output)) as [[stack' out']| | |]; cbn [rbind]; try contradiction.
        -- destruct F as (output' & -> & Wt & ST).
           destruct (IH rest) as (_ & H2 & _). rewrite <- ST. change (Op ii l p :: map classify rest) with ([Op ii l p] ++ map classify rest). rewrite <- T.
           apply H2; [cbn in *; lia|assumption|unfold e; destruct l; discriminate|assumption].
        -- rewrite T in F. change (Op ii l p :: map classify rest) with ([Op ii l p] ++ map classify rest). rewrite app_assoc. now apply clash_app.
  - intros e stack output HF Wt NA WF. destruct input as [|o rest]; [discriminate|].
    rewrite classify_process. cbn [map well_formed] in *. destruct (classify o) as [x|ii l p] eqn:EC; [|discriminate].
    pose proof (classify_arg _ _ EC) as ->. destruct Wt as (G & L & Ab).
    destruct (IH rest) as (H1 & _ & _). change (o :: map build output) with (map build (Leaf o :: output)).
    assert (ST : state_tokens stack output ++ tok e ++ Arg o :: map classify rest = state_tokens (e :: stack) (Leaf o :: output) ++ map classify rest)
      by (cbn [state_tokens written]; rewrite <- !app_assoc; reflexivity).
    rewrite ST. apply H1; [cbn in *; lia| |exact I|assumption].
    cbn [good]. split; [exact I|]. split; [destruct e; exact I|]. auto.
  - intros o rest stack output -> HF Wt EC WF.
    rewrite classify_process. cbn [map well_formed] in *. rewrite EC in WF |- *.
    destruct Wt as (G & L & Ab).
    destruct (IH rest) as (H1 & _ & _). change (o :: map build output) with (map build (Leaf o :: output)).
    assert (ST : state_tokens stack output ++ Arg o :: map classify rest = state_tokens (APPentry :: stack) (Leaf o :: output) ++ map classify rest)
      by (cbn [state_tokens written tok]; rewrite <- !app_assoc; reflexivity).
    rewrite ST. apply H1; [cbn in *; lia| |exact I|assumption].
    cbn [good]. split; [exact I|]. split; [exact I|]. auto.
Qed.

Lemma apply_len e out out' : apply e out = Done out' -> Z.of_nat (length out') = Z.of_nat (length out) - 1.
Proof. destruct out as [|o2 [|o1 out]]; cbn [Infix_Model.apply]; intros E; try discriminate. injection E as <-. cbn [length]. lia. Qed.
Lemma flushAll_len stack : forall out x, flushAll stack out = Done x -> Z.of_nat (length out) - Z.of_nat (length stack) = 1.
Proof.
  induction stack as [|e stack IH]; intros out x; cbn [Infix_Model.flushAll].
  - destruct out as [|o [|]]; try discriminate. cbn. lia.
  - destruct (apply e out) as [out'| | |] eqn:E; cbn [rbind]; try discriminate. intros H. apply IH in H. apply apply_len in E. cbn [length]. lia.
Qed.
Lemma flushHigher_len e stack : forall out stack' out', flushHigher e stack out = Done (stack', out') ->
  Z.of_nat (length out') - Z.of_nat (length stack') = Z.of_nat (length out) - Z.of_nat (length stack).
Proof.
  induction stack as [|top stack IH]; intros out stack' out'; cbn [Infix_Model.flushHigher].
  - intros E. now injection E as <- <-.
  - destruct (assocLeft top e) as [[|]| | |]; cbn [rbind]; try discriminate.
    + destruct (apply top out) as [out1| | |] eqn:E; cbn [rbind]; try discriminate. intros H. apply IH in H. apply apply_len in E. cbn [length]. lia.
    + intros E. now injection E as <- <-.
Qed.
Definition is_arg (l : lastobj) : bool := match l with ARG => true | _ => false end.
Lemma process_len fuel : forall input stack last out x, process fuel input stack last out = Done x ->
  Z.of_nat (length out) - Z.of_nat (length stack) + balance Obj IdInfo (is_arg last) (map classify input) = 1.
Proof.
  induction fuel as [|fuel IH]; intros input stack last out x; [discriminate|].
  destruct input as [|o rest].
  - cbn [Infix_Model.process map balance]. intros H. apply flushAll_len in H. lia.
  - rewrite classify_process. cbn [map balance]. destruct (classify o) as [y|ii l p] eqn:EC.
    + destruct last; cbn [is_arg].
      * destruct (flushHigher APPentry stack out) as [[st' out']| | |] eqn:F; cbn [rbind]; try discriminate.
        intros H. apply IH in H. apply flushHigher_len in F. cbn [map balance is_arg length] in H. rewrite EC in H. lia.
      * intros H. apply IH in H. cbn [is_arg length] in H. lia.
      * intros H. apply IH in H. cbn [is_arg length] in H. lia.
    + cbv zeta. destruct (flushHigher (if l then INFIXentry ii p else INFIXRentry ii p) stack out) as [[st' out']| | |] eqn:F; cbn [rbind]; try discriminate.
      intros H. apply IH in H. apply flushHigher_len in F. cbn [is_arg length] in H. lia.
Qed.

(** the resolver needs no more than its fuel *)
Lemma fuel_apply e out : apply e out <> OutOfFuel.
Proof. destruct out as [|? [|? ?]]; cbn; discriminate. Qed.
Lemma fuel_flushAll stack : forall out, flushAll stack out <> OutOfFuel.
Proof.
  induction stack as [|e stack IH]; intros out; cbn [Infix_Model.flushAll]; [destruct out as [|? [|]]; discriminate|].
  destruct (apply e out) eqn:E; cbn [rbind]; try discriminate; [apply IH|now apply fuel_apply in E].
Qed.
Lemma fuel_flushHigher e stack : forall out, flushHigher e stack out <> OutOfFuel.
Proof.
  induction stack as [|top stack IH]; intros out; cbn [Infix_Model.flushHigher]; [discriminate|].
  pose proof (assocLeft_cases top e) as A. destruct (assocLeft top e) as [[|]| | |]; cbn [rbind]; try discriminate; [|contradiction].
  destruct (apply top out) eqn:E; cbn [rbind]; try discriminate; [apply IH|now apply fuel_apply in E].
Qed.
Lemma fuel_process fuel : forall input stack last out,
  (2 * length input + (if is_arg last then 1 else 0) <= fuel)%nat -> (fuel = O -> input = [] -> False) ->
  process fuel input stack last out <> OutOfFuel.
Proof.
  induction fuel as [|fuel IH]; intros input stack last out HF HN.
  - destruct input; [now elim HN|cbn in HF; lia].
  - destruct input as [|o rest]; [apply fuel_flushAll|]. rewrite classify_process. cbn [length] in HF.
    destruct (classify o) as [y|ii l p] eqn:EC.
    + destruct last; cbn [is_arg] in HF.
      * destruct (flushHigher APPentry stack out) as [[st' out']| | |] eqn:F; cbn [rbind]; try discriminate; [|now apply fuel_flushHigher in F].
        apply IH; [cbn in *; lia|discriminate].
      * apply IH; [cbn in *; lia|lia].
      * apply IH; [cbn in *; lia|lia].
    + cbv zeta. destruct (flushHigher _ stack out) as [[st' out']| | |] eqn:F; cbn [rbind]; try discriminate; [|now apply fuel_flushHigher in F].
      apply IH; [cbn in *; lia|lia].
Qed.

Lemma resolve_wf input : well_formed false (map classify input) = true -> outcome_ok (map classify input) (resolveInfix input).
Proof.
  intros WF. destruct input as [|o rest]; [discriminate|]. unfold Infix_Model.resolveInfix.
  replace (2 * length (o :: rest) + 1)%nat with (S (2 * length (o :: rest))) by lia. rewrite classify_process.
  cbn [map well_formed] in *. destruct (classify o) as [y|ii l p] eqn:EC; [|discriminate]. pose proof (classify_arg _ _ EC) as ->.
  destruct (process_wf (2 * length (o :: rest)) rest) as (H1 & _ & _).
  apply (H1 [] [Leaf o]); [cbn; lia|exact I|exact I|assumption].
Qed.
End Run.

(** *** The property *)
Section Property.
Context {Obj IdInfo : Type}.
Implicit Types (pair : Obj -> Obj -> Obj) (asId : Obj -> option IdInfo) (applyId : IdInfo -> Obj -> Obj)
  (applyObj : Obj -> Obj -> Obj) (statusOfId : IdInfo -> fixity).

(** the resolver succeeds exactly on the sequences that are written for a correct tree,
    and gives the syntax of that tree *)
Theorem C45_resolves : forall pair asId applyId applyObj statusOfId objs x,
  resolveInfix pair asId applyId applyObj statusOfId objs = Done x ->
  exists t, correct t /\ written t = map (classify asId statusOfId) objs /\ x = build pair applyId applyObj t.
Proof.
  intros pair asId applyId applyObj st objs x H.
  assert (WF : well_formed false (map (classify asId st) objs) = true).
  { apply balance_wf. apply process_len in H. exact H. }
  pose proof (resolve_wf Obj IdInfo pair asId applyId applyObj st objs WF) as R. rewrite H in R.
  destruct R as (t & E & C & W). exists t. auto.
Qed.

(** there is at most one such tree *)
Theorem C45_unique : forall t t' : tree Obj IdInfo, correct t -> correct t' -> written t = written t' -> t = t'.
Proof. exact (correct_unique Obj IdInfo). Qed.

(** every well-formed sequence is resolved, except that the error about associativity is reported
    exactly when two operators clash *)
Theorem C45_complete : forall pair asId applyId applyObj statusOfId objs,
  well_formed false (map (classify asId statusOfId) objs) = true ->
  (clash (map (classify asId statusOfId) objs) /\ resolveInfix pair asId applyId applyObj statusOfId objs = MixedAssociativity) \/
  (~ clash (map (classify asId statusOfId) objs) /\
   exists t, correct t /\ written t = map (classify asId statusOfId) objs /\
     resolveInfix pair asId applyId applyObj statusOfId objs = Done (build pair applyId applyObj t)).
Proof.
  intros pair asId applyId applyObj st objs WF.
  pose proof (resolve_wf Obj IdInfo pair asId applyId applyObj st objs WF) as R.
  destruct (resolveInfix pair asId applyId applyObj st objs) as [x| | |] eqn:E; try contradiction.
  - right. destruct R as (t & -> & C & W). split; [rewrite <- W; now apply correct_no_clash|]. exists t. auto.
  - left. auto.
Qed.

(** every other sequence is refused *)
Theorem C45_refuses : forall pair asId applyId applyObj statusOfId objs,
  well_formed false (map (classify asId statusOfId) objs) = false ->
  resolveInfix pair asId applyId applyObj statusOfId objs = WrongInfix \/
  resolveInfix pair asId applyId applyObj statusOfId objs = MixedAssociativity.
Proof.
  intros pair asId applyId applyObj st objs WF.
  destruct (resolveInfix pair asId applyId applyObj st objs) as [x| | |] eqn:E; auto.
  - apply process_len in E. change (balance Obj IdInfo false (map (classify asId st) objs) = 1) in E. destruct (proj1 (balance_wf Obj IdInfo (map (classify asId st) objs))) as [_ H].
    rewrite H in WF by lia. discriminate.
  - apply fuel_process in E; [contradiction|cbn; lia|lia].
Qed.
End Property.

(** *** Example: f x + 2 * y :: nil, and a clash *)
Inductive sx := V (c : Z) | P (a b : sx) | A (i : Z) (a : sx) | J (a b : sx).
Definition ex_as (o : sx) : option Z := match o with V c => Some c | _ => None end.
Definition ex_st (c : Z) : fixity := if c =? 1 then INFIXst 6 else if c =? 2 then INFIXst 7 else if c =? 3 then INFIXRst 5 else if c =? 4 then INFIXst 5 else NONFIXst.
Example resolve_example :
  well_formed false (map (classify ex_as ex_st) [V 10; V 11; V 1; V 12; V 2; V 13; V 3; V 14]) = true /\
  resolveInfix P ex_as A J ex_st [V 10; V 11; V 1; V 12; V 2; V 13; V 3; V 14]
    = Done (A 3 (P (A 1 (P (J (V 10) (V 11)) (A 2 (P (V 12) (V 13))))) (V 14))) /\
  resolveInfix P ex_as A J ex_st [V 10; V 3; V 11; V 1; V 12; V 4; V 13] = MixedAssociativity /\
  well_formed false (map (classify ex_as ex_st) [V 10; V 1; V 2; V 11]) = false /\
  resolveInfix P ex_as A J ex_st [V 10; V 1; V 2; V 11] = WrongInfix.
Proof. repeat split. Qed.

Print Assumptions C45_resolves.
Print Assumptions C45_unique.
Print Assumptions C45_complete.
Print Assumptions C45_refuses.
