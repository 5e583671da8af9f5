(** C46: the tables of the N-way branches on integers fit the byte that holds their size (Emitcode.sml
    25-27 says that a larger one would be a bug in the compilation of switches). *)
From Verif Require Import Base Back_Model.

(** ** Specification *)
(** the tables of a tree, with the least and the greatest key *)
Fixpoint tables (t : dtree) : list (Z * nat * Z) :=
  match t with DTfail => [] | DTinterval l lo act hi r => tables l ++ (lo, length act, hi) :: tables r end.
Definition fits '((lo, n, hi) : Z * nat * Z) : Prop := (1 <= n <= 255)%nat /\ hi = lo + Z.of_nat n - 1.

(** ** Proofs *)
Lemma set_nth_len {A} (l : list A) : forall i x, length (set_nth l i x) = length l.
Proof. induction l as [|y l IH]; intros [|i] x; cbn; try reflexivity. now rewrite IH. Qed.
Lemma fill_len l lo n : forall i a act, fill l lo i n a = Ret act -> length act = length a.
Proof.
  induction n as [|n IH]; intros i a act H; cbn [fill] in H; [now injection H as <-|].
  destruct (nth_error l i) as [[k e]|]; [|discriminate]. destruct (isub k lo); try discriminate H. cbn [bind] in H.
  destruct (_ && _); [|discriminate]. apply IH in H. now rewrite set_nth_len in H.
Qed.
(** an interval with no element would not have been filled *)
Lemma fill_some l lo n i a act : fill l lo i (S n) a = Ret act -> (1 <= length a)%nat.
Proof.
  cbn [fill]. destruct (nth_error l i) as [[k e]|]; [|discriminate]. destruct (isub k lo) as [d| | |]; try discriminate. cbn [bind].
  destruct (Z.leb_spec 0 d), (Z.ltb_spec d (Z.of_nat (length a))); cbn [andb]; try discriminate. lia.
Qed.
Lemma find_stop_span l start : forall stop s lo hi, find_stop l start stop = Ret s -> key l start = Ret lo -> key l s = Ret hi -> hi - lo < 255.
Proof.
  assert (C : forall stop a lo d s hi, key l stop = Ret a -> isub a lo = Ret d -> (d >=? 255) || (d >? 4 * (Z.of_nat stop - Z.of_nat start)) = false -> s = stop -> key l s = Ret hi -> hi - lo < 255).
  { intros stop a lo d s hi Ka D T -> Kh. rewrite Ka in Kh. injection Kh as <-. unfold isub in D. destruct (in_intb _); [|discriminate]. injection D as <-.
    apply orb_false_iff in T as [T _]. rewrite Z.geb_leb in T. apply Z.leb_gt in T. exact T. }
  induction stop as [|stop IH]; intros s lo hi H Kl Kh; cbn [find_stop] in H.
  - destruct (key l 0) as [a| | |] eqn:Ka; try discriminate H. cbn [bind] in H. rewrite Kl in H. cbn [bind] in H.
    destruct (isub a lo) as [d| | |] eqn:D; try discriminate H. cbn [bind] in H. destruct (_ || _) eqn:T in H; [discriminate|]. injection H as E. exact (C _ _ _ _ _ _ Ka D T (eq_sym E) Kh).
  - destruct (key l (S stop)) as [a| | |] eqn:Ka; try discriminate H. cbn [bind] in H. rewrite Kl in H. cbn [bind] in H.
    destruct (isub a lo) as [d| | |] eqn:D; try discriminate H. cbn [bind] in H. destruct (_ || _) eqn:T in H; [now apply (IH s)|]. injection H as E. exact (C _ _ _ _ _ _ Ka D T (eq_sym E) Kh).
Qed.
Lemma partition_fits l fuel : forall start part, partition fuel l start = Ret part -> Forall (fun '(lo, act, hi) => fits (lo, length act, hi)) part.
Proof.
  induction fuel as [|fuel IH]; intros start part H; cbn [partition] in H; [discriminate|].
  destruct (Nat.leb (length l) start); [injection H as <-; constructor|].
  destruct (find_stop l start (length l - 1)) as [stop| | |] eqn:F; try discriminate H. cbn [bind] in H.
  destruct (key l start) as [lo| | |] eqn:Kl; try discriminate H. cbn [bind] in H.
  destruct (extractAct l start stop) as [act| | |] eqn:X; try discriminate H. cbn [bind] in H.
  destruct (key l stop) as [hi| | |] eqn:Kh; try discriminate H. cbn [bind] in H.
  destruct (partition fuel l (S stop)) as [r| | |] eqn:P; try discriminate H. cbn [bind] in H. injection H as <-.
  constructor; [|now apply IH in P]. pose proof (find_stop_span _ _ _ _ _ _ F Kl Kh) as B.
  unfold extractAct in X. rewrite Kh in X. cbn [bind] in X. rewrite Kl in X. cbn [bind] in X. unfold isub at 1 in X. destruct (in_intb (hi - lo)); [|discriminate]. cbn [bind] in X.
  pose proof (fill_some _ _ _ _ _ _ X) as N. apply fill_len in X. rewrite repeat_length in X, N. cbn [fits]. lia.
Qed.
Lemma make_tree_fits fuel : forall part, Forall (fun '(lo, act, hi) => fits (lo, length act, hi)) part -> Forall fits (tables (make_tree fuel part)).
Proof.
  induction fuel as [|fuel IH]; intros part H; cbn [make_tree]; [constructor|]. destruct part as [|p0 part0]; [constructor|]. set (part := p0 :: part0) in *.
  set (m := Nat.div2 (length part - 1)). pose proof (firstn_skipn m part) as E. rewrite <- E in H. apply Forall_app in H as [H1 H2].
  destruct (skipn m part) as [|[[lo act] hi] r]; [constructor|]. inversion H2; subst. cbn [tables]. apply Forall_app. split; [now apply IH|]. constructor; [assumption|now apply IH].
Qed.

(** ** Theorem *)
Theorem C46_tables : forall clauses t, compileNBranch clauses = Ret t -> Forall fits (tables t).
Proof.
  intros clauses t H. unfold compileNBranch in H. match type of H with bind ?m _ = _ => destruct m as [l| | |] end; try discriminate H. cbn [bind] in H.
  destruct (partition (S (length l)) l 0) as [part| | |] eqn:P; try discriminate H. cbn [bind] in H. injection H as <-.
  apply (make_tree_fits (S (length part)) part). now apply partition_fits in P.
Qed.
(** four keys in two tables *)
Example C46_tables_ex : exists t, compileNBranch [(7, Lstaticfail); (3, Lstaticfail); (1000, Lstaticfail); (4, Lstaticfail)] = Ret t /\ tables t = [(3, 5%nat, 7); (1000, 1%nat, 1000)].
Proof. eexists. split; reflexivity. Qed.

Print Assumptions C46_tables.
