(** The constants of MD5: T[i] is the integer part of 4294967296 * |sin i| (RFC 1321, 3.4).  The sine is
    that of Coq's real numbers; it is enclosed by integer arithmetic from the Taylor sums at 1 and the
    addition formulas. *)
From Coq Require Import ZArith List Reals Lra Lia.
From Verif Require Import Md5_Spec.
Import ListNotations.
Open Scope Z_scope.

(** ** The Taylor sums at 1 *)
(** numerator and denominator of the sum up to term [n]: sine (o = 1), cosine (o = 0) *)
Fixpoint fac (o : Z) (n : nat) : Z :=
  match n with
  | O => 1
  | S n => fac o n * (2 * Z.of_nat n + 1 + o) * (2 * Z.of_nat n + 2 + o)
  end.
Fixpoint num (o : Z) (n : nat) : Z :=
  match n with
  | O => 1
  | S n => num o n * (2 * Z.of_nat n + 1 + o) * (2 * Z.of_nat n + 2 + o) + (if Nat.even n then -1 else 1)
  end.

Open Scope R_scope.
Lemma fac_sin n : INR (fact (2 * n + 1)) = IZR (fac 1 n).
Proof.
  induction n as [|n IH]; [reflexivity|].
  replace (2 * S n + 1)%nat with (S (S (2 * n + 1)))%nat by lia.
  rewrite !fact_simpl, !mult_INR, IH. cbn [fac]. rewrite !mult_IZR, !INR_IZR_INZ, <- !mult_IZR. f_equal. lia.
Qed.
Lemma fac_cos n : INR (fact (2 * n)) = IZR (fac 0 n).
Proof.
  induction n as [|n IH]; [reflexivity|].
  replace (2 * S n)%nat with (S (S (2 * n)))%nat by lia.
  rewrite !fact_simpl, !mult_INR, IH. cbn [fac]. rewrite !mult_IZR, !INR_IZR_INZ, <- !mult_IZR. f_equal. lia.
Qed.
Lemma fac_pos o n : (0 <= o)%Z -> (0 < fac o n)%Z.
Proof. intros Ho. induction n as [|n IH]; cbn [fac]; [lia|]. apply Z.mul_pos_pos; [apply Z.mul_pos_pos|]; lia. Qed.
Lemma pow_even_sign n : (-1) ^ S n = IZR (if Nat.even n then -1 else 1).
Proof.
  induction n as [|n IH]; [cbn; lra|]. rewrite <- tech_pow_Rmult, IH. rewrite Nat.even_succ, <- Nat.negb_even.
  destruct (Nat.even n); cbn; lra.
Qed.
Lemma sum_eq (t : nat -> R) (o : Z) : (0 <= o)%Z -> (forall n, t n = (-1) ^ n / IZR (fac o n)) ->
  forall n, sum_f_R0 t n = IZR (num o n) / IZR (fac o n).
Proof.
  intros Ho T. induction n as [|n IH].
  - cbn [sum_f_R0 num fac]. rewrite T. cbn. lra.
  - cbn [sum_f_R0]. rewrite IH, T, pow_even_sign. cbn [num fac].
    assert (IZR (fac o n) <> 0) by (apply not_0_IZR; pose proof (fac_pos o n Ho); lia).
    rewrite plus_IZR, !mult_IZR.
    assert (IZR (2 * Z.of_nat n + 1 + o) <> 0) by (apply not_0_IZR; lia).
    assert (IZR (2 * Z.of_nat n + 2 + o) <> 0) by (apply not_0_IZR; lia).
    field. auto.
Qed.
Lemma sin_sum n : sin_approx 1 n = IZR (num 1 n) / IZR (fac 1 n).
Proof.
  apply (sum_eq (sin_term 1) 1); [lia|]. intros k. unfold sin_term. rewrite fac_sin, pow1. field.
  apply not_0_IZR. pose proof (fac_pos 1 k). lia.
Qed.
Lemma cos_sum n : cos_approx 1 n = IZR (num 0 n) / IZR (fac 0 n).
Proof.
  apply (sum_eq (cos_term 1) 0); [lia|]. intros k. unfold cos_term. rewrite fac_cos, pow1. field.
  apply not_0_IZR. pose proof (fac_pos 0 k). lia.
Qed.

(** ** Enclosures scaled by 2^100 *)
Definition M : Z := 2 ^ 100.
(** |M x - X| <= e *)
Definition near (x : R) (X e : Z) : Prop := Rabs (IZR M * x - IZR X) <= IZR e.

Lemma div_bounds a b : (0 < b)%Z -> IZR (a * M / b) <= IZR M * (IZR a / IZR b) <= IZR (a * M / b) + 1.
Proof.
  intros Hb. set (q := (a * M / b)%Z).
  assert (b * q <= a * M < b * (q + 1))%Z as [H1 H2].
  { pose proof (Z.mul_div_le (a * M) b Hb). pose proof (Z.mul_succ_div_gt (a * M) b Hb). unfold Z.succ in *. fold q in H, H0. lia. }
  apply IZR_le in H1. apply IZR_lt in H2. rewrite !mult_IZR in H1, H2. rewrite plus_IZR in H2.
  apply IZR_lt in Hb. replace (IZR M * (IZR a / IZR b)) with ((IZR a * IZR M) / IZR b) by (field; lra).
  split.
  - apply Rmult_le_reg_r with (IZR b); [assumption|]. unfold Rdiv. rewrite Rmult_assoc, Rinv_l by lra. lra.
  - apply Rmult_le_reg_r with (IZR b); [assumption|]. unfold Rdiv. rewrite Rmult_assoc, Rinv_l by lra. lra.
Qed.

Definition lo (o : Z) : Z := (num o (2 * 14 + 1) * M / fac o (2 * 14 + 1))%Z.
Definition hi (o : Z) : Z := (num o (2 * (14 + 1)) * M / fac o (2 * (14 + 1)))%Z.
Lemma near_sin1 : near (sin 1) (lo 1) (hi 1 + 1 - lo 1).
Proof.
  unfold near. destruct (pre_sin_bound 1 14 ltac:(lra) ltac:(lra)) as [L H]. rewrite !sin_sum in L, H.
  pose proof (div_bounds (num 1 (2 * 14 + 1)) (fac 1 (2 * 14 + 1)) ltac:(apply fac_pos; lia)) as [L1 _].
  pose proof (div_bounds (num 1 (2 * (14 + 1))) (fac 1 (2 * (14 + 1))) ltac:(apply fac_pos; lia)) as [_ H1].
  fold (lo 1) in L1. fold (hi 1) in H1.
  assert (0 < IZR M) by (apply IZR_lt; reflexivity).
  apply (Rmult_le_compat_l (IZR M)) in L; [|lra]. apply (Rmult_le_compat_l (IZR M)) in H; [|lra].
  rewrite minus_IZR, plus_IZR. apply Rabs_le. lra.
Qed.
Lemma near_cos1 : near (cos 1) (lo 0) (hi 0 + 1 - lo 0).
Proof.
  unfold near. destruct (pre_cos_bound 1 14 ltac:(lra) ltac:(lra)) as [L H]. rewrite !cos_sum in L, H.
  pose proof (div_bounds (num 0 (2 * 14 + 1)) (fac 0 (2 * 14 + 1)) ltac:(apply fac_pos; lia)) as [L1 _].
  pose proof (div_bounds (num 0 (2 * (14 + 1))) (fac 0 (2 * (14 + 1))) ltac:(apply fac_pos; lia)) as [_ H1].
  fold (lo 0) in L1. fold (hi 0) in H1.
  assert (0 < IZR M) by (apply IZR_lt; reflexivity).
  apply (Rmult_le_compat_l (IZR M)) in L; [|lra]. apply (Rmult_le_compat_l (IZR M)) in H; [|lra].
  rewrite minus_IZR, plus_IZR. apply Rabs_le. lra.
Qed.

(** the product of two enclosed numbers, scaled by M * M *)
Lemma near_mult x X e y Y f : near x X e -> near y Y f ->
  Rabs (IZR M * x * (IZR M * y) - IZR (X * Y)) <= IZR (Z.abs X * f + Z.abs Y * e + e * f).
Proof.
  unfold near. intros A B. set (u := IZR M * x - IZR X) in *. set (v := IZR M * y - IZR Y) in *.
  replace (IZR M * x * (IZR M * y) - IZR (X * Y)) with (IZR X * v + IZR Y * u + u * v)
    by (unfold u, v; rewrite mult_IZR; ring).
  rewrite !plus_IZR, !mult_IZR, !abs_IZR.
  eapply Rle_trans; [apply Rabs_triang|]. eapply Rle_trans; [apply Rplus_le_compat_r, Rabs_triang|].
  rewrite !Rabs_mult.
  pose proof (Rabs_pos u). pose proof (Rabs_pos v). pose proof (Rabs_pos (IZR X)). pose proof (Rabs_pos (IZR Y)).
  apply Rplus_le_compat; [apply Rplus_le_compat|].
  - apply Rmult_le_compat_l; assumption.
  - apply Rmult_le_compat_l; assumption.
  - apply Rmult_le_compat; assumption.
Qed.
(** the sum of two products, scaled back *)
Lemma near_combine z P Q e : Rabs (IZR M * (IZR M * z) - IZR P) <= IZR e ->
  Q = (P / M)%Z -> near z Q (e / M + 2).
Proof.
  intros A ->. unfold near.
  assert (0 < M)%Z as HM by reflexivity. pose proof (IZR_lt _ _ HM) as HM'.
  pose proof (Z.mul_div_le P M HM) as P1. pose proof (Z.mul_succ_div_gt P M HM) as P2.
  pose proof (Z.mul_succ_div_gt e M HM) as E2. unfold Z.succ in *.
  apply IZR_le in P1. apply IZR_lt in P2, E2. rewrite mult_IZR in P1, P2, E2. rewrite plus_IZR in P2, E2.
  rewrite plus_IZR. set (p := IZR (P / M)) in *. set (q := IZR (e / M)) in *. 
  assert (B : - (IZR e + IZR M) <= IZR M * (IZR M * z - p) <= IZR e + IZR M).
  { unfold Rabs in A. destruct (Rcase_abs _) in A; lra. }
  apply Rabs_le. split.
  - apply Rmult_le_reg_l with (IZR M); [assumption|]. lra.
  - apply Rmult_le_reg_l with (IZR M); [assumption|]. lra.
Qed.

Definition s1 : Z := Eval vm_compute in lo 1.
Definition c1 : Z := Eval vm_compute in lo 0.
Definition es : Z := Eval vm_compute in (hi 1 + 1 - lo 1)%Z.
Definition ec : Z := Eval vm_compute in (hi 0 + 1 - lo 0)%Z.
Lemma near_s1 : near (sin 1) s1 es.
Proof.
  assert (s1 = lo 1) as -> by (vm_compute; reflexivity).
  assert (es = hi 1 + 1 - lo 1)%Z as -> by (vm_compute; reflexivity). exact near_sin1.
Qed.
Lemma near_c1 : near (cos 1) c1 ec.
Proof.
  assert (c1 = lo 0) as -> by (vm_compute; reflexivity).
  assert (ec = hi 0 + 1 - lo 0)%Z as -> by (vm_compute; reflexivity). exact near_cos1.
Qed.
(** from the enclosures of sin n and cos n to those of sin (n+1) and cos (n+1) *)
Definition next (t : Z * Z * Z) : Z * Z * Z :=
  let '(s, c, e) := t in
  let e1 := (Z.abs s * ec + Z.abs c1 * e + e * ec + (Z.abs c * es + Z.abs s1 * e + e * es))%Z in
  let e2 := (Z.abs c * ec + Z.abs c1 * e + e * ec + (Z.abs s * es + Z.abs s1 * e + e * es))%Z in
  ((s * c1 + c * s1) / M, (c * c1 - s * s1) / M, Z.max (e1 / M + 2) (e2 / M + 2))%Z.
Lemma near_le x X e f : near x X e -> (e <= f)%Z -> near x X f.
Proof. unfold near. intros A B. apply IZR_le in B. lra. Qed.
Lemma next_ok x s c e s' c' e' : near (sin x) s e -> near (cos x) c e -> next (s, c, e) = (s', c', e') ->
  near (sin (x + 1)) s' e' /\ near (cos (x + 1)) c' e'.
Proof.
  intros Hs Hc E. unfold next in E.
  assert (s' = ((s * c1 + c * s1) / M)%Z) as -> by congruence.
  assert (c' = ((c * c1 - s * s1) / M)%Z) as -> by congruence.
  set (e1 := (Z.abs s * ec + Z.abs c1 * e + e * ec + (Z.abs c * es + Z.abs s1 * e + e * es))%Z) in *.
  set (e2 := (Z.abs c * ec + Z.abs c1 * e + e * ec + (Z.abs s * es + Z.abs s1 * e + e * es))%Z) in *.
  assert (e' = Z.max (e1 / M + 2) (e2 / M + 2)) as -> by congruence. clear E. split.
  - apply near_le with (e1 / M + 2)%Z; [|apply Z.le_max_l]. eapply near_combine; [|reflexivity].
    rewrite sin_plus.
    pose proof (near_mult _ _ _ _ _ _ Hs near_c1) as A. pose proof (near_mult _ _ _ _ _ _ Hc near_s1) as B.
    unfold e1. rewrite (plus_IZR (Z.abs s * ec + Z.abs c1 * e + e * ec)).
    replace (IZR M * (IZR M * (sin x * cos 1 + cos x * sin 1)) - IZR (s * c1 + c * s1)) with
      ((IZR M * sin x * (IZR M * cos 1) - IZR (s * c1)) + (IZR M * cos x * (IZR M * sin 1) - IZR (c * s1)))
      by (rewrite plus_IZR; ring).
    eapply Rle_trans; [apply Rabs_triang|]. apply Rplus_le_compat; assumption.
  - apply near_le with (e2 / M + 2)%Z; [|apply Z.le_max_r]. eapply near_combine; [|reflexivity].
    rewrite cos_plus.
    pose proof (near_mult _ _ _ _ _ _ Hc near_c1) as A. pose proof (near_mult _ _ _ _ _ _ Hs near_s1) as B.
    unfold e2. rewrite (plus_IZR (Z.abs c * ec + Z.abs c1 * e + e * ec)).
    replace (IZR M * (IZR M * (cos x * cos 1 - sin x * sin 1)) - IZR (c * c1 - s * s1)) with
      ((IZR M * cos x * (IZR M * cos 1) - IZR (c * c1)) + - (IZR M * sin x * (IZR M * sin 1) - IZR (s * s1)))
      by (rewrite minus_IZR; ring).
    eapply Rle_trans; [apply Rabs_triang|]. rewrite Rabs_Ropp. apply Rplus_le_compat; assumption.
Qed.

Fixpoint enclose (n : nat) : Z * Z * Z :=
  match n with O => (0, M, 0)%Z | S n => next (enclose n) end.
Lemma enclose_ok n : let '(s, c, e) := enclose n in near (sin (IZR (Z.of_nat n))) s e /\ near (cos (IZR (Z.of_nat n))) c e.
Proof.
  induction n as [|n IH].
  - cbn [enclose Z.of_nat]. unfold near. rewrite sin_0, cos_0. split.
    + replace (IZR M * 0 - 0) with 0 by ring. rewrite Rabs_R0. lra.
    + replace (IZR M * 1 - IZR M) with 0 by ring. rewrite Rabs_R0. lra.
  - cbn [enclose]. destruct (enclose n) as [[s c] e]. destruct IH as [Hs Hc].
    destruct (next (s, c, e)) as [[s' c'] e'] eqn:E.
    replace (IZR (Z.of_nat (S n))) with (IZR (Z.of_nat n) + 1) by (rewrite <- plus_IZR; f_equal; lia).
    eapply next_ok; eassumption.
Qed.

(** the integer part of 2^32 |x| from an enclosure that leaves no doubt *)
Definition certain (t s e : Z) : bool := (t * M <=? (Z.abs s - e) * 2 ^ 32)%Z && ((Z.abs s + e) * 2 ^ 32 <? (t + 1) * M)%Z.
Lemma certain_ok x t s e : near x s e -> certain t s e = true -> t = Int_part (4294967296 * Rabs x).
Proof.
  unfold near, certain. intros N C. apply andb_prop in C as [C1 C2]. apply Z.leb_le in C1. apply Z.ltb_lt in C2.
  apply IZR_le in C1. apply IZR_lt in C2. rewrite !mult_IZR in C1, C2. rewrite minus_IZR in C1. rewrite !plus_IZR in C2.
  rewrite abs_IZR in C1, C2. change (2 ^ 32)%Z with 4294967296%Z in C1, C2.
  assert (0 < IZR M) as HM by (apply IZR_lt; reflexivity).
  assert (B : Rabs (IZR s) - IZR e <= IZR M * Rabs x <= Rabs (IZR s) + IZR e).
  { assert (E : IZR M * Rabs x = Rabs (IZR M * x)) by (rewrite Rabs_mult, (Rabs_right (IZR M)) by lra; reflexivity).
    rewrite E. unfold Rabs in *. destruct (Rcase_abs (IZR M * x)), (Rcase_abs (IZR s)), (Rcase_abs (IZR M * x - IZR s)); lra. }
  set (r := 4294967296 * Rabs x).
  assert (R1 : IZR t <= r). { apply Rmult_le_reg_r with (IZR M); [assumption|]. unfold r. lra. }
  assert (R2 : r < IZR t + 1). { apply Rmult_lt_reg_r with (IZR M); [assumption|]. unfold r. lra. }
  destruct (base_Int_part r) as [I1 I2]. clearbody r.
  assert (IZR t < IZR (Int_part r + 1)) as J1 by (rewrite plus_IZR; lra).
  assert (IZR (Int_part r) < IZR (t + 1)) as J2 by (rewrite plus_IZR; lra).
  apply lt_IZR in J1, J2. lia.
Qed.

Fixpoint check (n : nat) (i : Z) (t : Z * Z * Z) : bool :=
  match n with
  | O => true
  | S n => let t := next t in let '(s, _, e) := t in certain (T i) s e && check n (i + 1) t
  end.
Lemma check_all : check 64 1 (0, M, 0)%Z = true.
Proof. vm_compute. reflexivity. Qed.
Lemma check_at n : forall k, check n (Z.of_nat (S k)) (enclose k) = true -> forall j, (k < j <= k + n)%nat ->
  let '(s, _, e) := enclose j in certain (T (Z.of_nat j)) s e = true.
Proof.
  induction n as [|n IH]; intros k C j Hj; [lia|]. cbn [check] in C.
  change (next (enclose k)) with (enclose (S k)) in C.
  destruct (enclose (S k)) as [[s c] e] eqn:E. apply andb_prop in C as [C1 C2].
  destruct (Nat.eq_dec j (S k)) as [->|N]; [now rewrite E|].
  rewrite <- E in C2. replace (Z.of_nat (S k) + 1)%Z with (Z.of_nat (S (S k))) in C2 by lia.
  apply (IH (S k) C2). lia.
Qed.

Lemma T_sin i : (1 <= i <= 64)%Z -> T i = Int_part (4294967296 * Rabs (sin (IZR i))).
Proof.
  intros Hi. pose proof (check_at 64 0 check_all (Z.to_nat i) ltac:(lia)) as K.
  pose proof (enclose_ok (Z.to_nat i)) as N.
  destruct (enclose (Z.to_nat i)) as [[s c] e]. rewrite Z2Nat.id in K, N by lia. destruct N as [N _].
  eapply certain_ok; eassumption.
Qed.
