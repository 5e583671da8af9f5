(** C59: a suspension that has a value keeps it and is not evaluated again; "at most once" is false
    where the expression forces its own suspension or raises an exception. *)
From Verif Require Import Base Susp_Model.

(** ** Specification *)
(** how often the evaluation of a suspension was begun *)
Definition times {V St} (su : nat) (w : world V St) : nat := count_occ Nat.eq_dec (starts w) su.
Definition has {V St} (w : world V St) (su : nat) (v : V) : Prop := nth_error (cells w) su = Some (VAL v).

(** ** Proofs *)
Section P.
Context {V St : Type}.
Lemma put_same (l : list (thunk V St)) : forall i t u, nth_error l i = Some u -> nth_error (put l i t) i = Some t.
Proof. induction l as [|x l IH]; intros [|i] t u H; try discriminate; [reflexivity|]. cbn in *. now apply (IH i t u). Qed.
Lemma put_other (l : list (thunk V St)) : forall i j t, i <> j -> nth_error (put l i t) j = nth_error l j.
Proof. induction l as [|x l IH]; intros [|i] [|j] t H; cbn; try reflexivity; try congruence. apply IH. congruence. Qed.
Lemma put_len (l : list (thunk V St)) : forall i t, length (put l i t) = length l.
Proof. induction l as [|x l IH]; intros [|i] t; cbn; try reflexivity. now rewrite IH. Qed.
Definition keeps (w w' : world V St) : Prop := (length (cells w) <= length (cells w'))%nat /\ forall su v, has w su v -> has w' su v /\ times su w' = times su w.
Lemma keeps_trans w w1 w2 : keeps w w1 -> keeps w1 w2 -> keeps w w2.
Proof. intros [L1 H1] [L2 H2]. split; [lia|]. intros su v H. destruct (H1 su v H) as [A B]. destruct (H2 su v A) as [C D]. split; [exact C|congruence]. Qed.
Lemma force_keeps ev : (forall p w r w', ev p w = Ret (r, w') -> keeps w w') -> forall su w r w', force ev su w = Ret (r, w') ->
  keeps w w' /\ forall v, r = inl v -> has w' su v.
Proof.
  intros IH su w r w' H. unfold force in H. destruct (nth_error (cells w) su) as [[v|f]|] eqn:E; [| |discriminate].
  - injection H as <- <-. split; [split; [lia|auto]|]. intros v' [= <-]. exact E.
  - match type of H with bind ?m _ = _ => destruct m as [[r1 w1]| | |] eqn:R end; try discriminate H. cbn [bind] in H. apply IH in R as [L R]. cbn [cells] in L.
    assert (K : keeps w w1).
    { split; [exact L|]. intros su' v Hv. destruct (R su' v Hv) as [A B]. split; [exact A|]. rewrite B. unfold times. cbn [starts count_occ].
      destruct (Nat.eq_dec su su') as [<-|]; [|reflexivity]. unfold has in Hv. congruence. }
    destruct r1 as [v|e]; injection H as <- <-; [|split; [exact K|discriminate]]. split.
    + split; cbn [cells]; [rewrite put_len; exact L|]. intros su' v' Hv. destruct K as [_ K]. destruct (K su' v' Hv) as [A B]. split; [|exact B].
      unfold has in *. cbn [cells]. rewrite put_other; [exact A|]. intros <-. congruence.
    + intros v' [= <-]. unfold has. cbn [cells]. destruct (nth_error (cells w1) su) as [u|] eqn:U; [now apply (put_same _ su _ u)|].
      apply nth_error_None in U. assert (su < length (cells w))%nat by (apply nth_error_Some; congruence). lia.
Qed.
Lemma eval_keeps fuel : forall p (w : world V St) r w', eval fuel p w = Ret (r, w') -> keeps w w'.
Proof.
  induction fuel as [|fuel IH]; intros p w r w' H; [discriminate|]. destruct p as [v|e|f|f k|su k]; cbn [eval] in H.
  - injection H as <- <-. split; [lia|auto].
  - injection H as <- <-. split; [lia|auto].
  - destruct (f (state w)) as [s p]. apply IH in H as [L H]. split; [exact L|exact H].
  - unfold delay in H. apply IH in H as [L H]. cbn [cells] in L. rewrite app_length in L. cbn [length] in L. split; [lia|]. intros su v Hv. apply (H su v). unfold has in *. cbn [cells].
    rewrite nth_error_app1; [exact Hv|]. apply nth_error_Some. congruence.
  - match type of H with bind ?m _ = _ => destruct m as [[r1 w1]| | |] eqn:R end; try discriminate H. cbn [bind] in H. apply force_keeps in R as [R _]; [|exact IH].
    apply IH in H. now apply (keeps_trans w w1 w').
Qed.
End P.

(** ** Theorems *)
(** when force has returned v, the suspension has the value v; whatever is run then leaves it so, never begins its
    evaluation again, and forcing it gives v at once *)
Theorem C59_value_partial : forall V St fuel su (w w1 : world V St) v, force (eval fuel) su w = Ret (inl v, w1) ->
  forall fuel' p r w2, eval fuel' p w1 = Ret (r, w2) -> times su w2 = times su w1 /\ forall ev, force ev su w2 = Ret (inl v, w2).
Proof.
  intros V St fuel su w w1 v H fuel' p r w2 E. apply force_keeps in H as [_ H]; [|intros p0 w0 r0 w0'; apply eval_keeps].
  apply eval_keeps in E as [_ E]. destruct (E su v (H v eq_refl)) as [A B]. split; [exact B|]. intros ev. unfold force. now rewrite A.
Qed.
(** delay evaluates nothing *)
Theorem C59_delay : forall V St (f : prog V St) w su w', delay f w = (su, w') -> starts w' = starts w /\ state w' = state w /\ nth_error (cells w') su = Some (THUNK f) /\
  forall i, (i < length (cells w))%nat -> nth_error (cells w') i = nth_error (cells w) i.
Proof.
  intros V St f w su w' [= <- <-]. cbn [starts state cells]. repeat split.
  - now rewrite nth_error_app2, Nat.sub_diag by lia.
  - intros i H. now apply nth_error_app1.
Qed.
(** Susp.sig: e is evaluated at most once.  Not so if it forces itself: e is
      (n := !n + 1; if !n = 1 then force su else !n)
    begun twice, though no exception is raised *)
Definition self : prog nat nat := PAct (fun n => (S n, if Nat.eqb n 0 then PForce 0 (fun r => match r with inl v => PVal (v + 10)%nat | inr e => PExn e end) else PVal (S n))).
Theorem C59_once_refuted : exists fuel (p : prog nat nat) w', eval fuel p (mkW [] [] 0%nat) = Ret (inl 12%nat, w') /\ times 0 w' = 2%nat.
Proof. exists 20%nat, (PDelay self (fun su => PForce su (fun r => match r with inl v => PVal v | inr e => PExn e end))). eexists. split; reflexivity. Qed.
(** nor if it raises an exception: it is evaluated again when it is forced again *)
Theorem C59_exception_refuted : exists fuel (p : prog nat nat) w', eval fuel p (mkW [] [] 0%nat) = Ret (inl 5%nat, w') /\ times 0 w' = 2%nat.
Proof. exists 20%nat, (PDelay (PExn Div) (fun su => PForce su (fun _ => PForce su (fun _ => PVal 5%nat)))). eexists. split; reflexivity. Qed.

(** ** Examples *)
Definition tick : prog nat nat := PAct (fun n => (S n, PVal (n + 100)%nat)).
Example C59_value_ex : exists w1 w2, force (eval 5) 0 (mkW [THUNK tick] [] 7%nat) = Ret (inl 107%nat, w1) /\
  eval 9 (PForce 0 (fun _ => PDelay tick (fun su => PForce su (fun r => match r with inl v => PVal v | inr e => PExn e end)))) w1 = Ret (inl 108%nat, w2) /\ times 0 w2 = 1%nat.
Proof. do 2 eexists. repeat split; reflexivity. Qed.
Example C59_delay_ex : delay tick (mkW [VAL 3%nat] [] 7%nat) = (1%nat, mkW [VAL 3%nat; THUNK tick] [] 7%nat).
Proof. reflexivity. Qed.

Print Assumptions C59_value_partial.
Print Assumptions C59_delay.
Print Assumptions C59_once_refuted.
Print Assumptions C59_exception_refuted.
