(** Proofs about the arithmetic model. *)
From Verif Require Import Base Arith_Model.

Lemma Long_val_odd x : Long_val (2 * x + 1) = x.
Proof. unfold Long_val. rewrite Z.shiftr_div_pow2 by lia. change (2^1) with 2. lia. Qed.

Lemma Val_long_int x : in_int x -> Val_long x = 2 * x + 1.
Proof.
  intros H. unfold Val_long. rewrite s64_id; [lia|].
  unfold in_int, in_long, two62, two63 in *. lia.
Qed.

Lemma ck_ok z : in_long z -> ck z = Ret z.
Proof. intros H. unfold ck. apply in_longb_spec in H. now rewrite H. Qed.

Lemma box_checked_spec t : in_long t ->
  box_checked t = if in_intb t then Ret (2 * t + 1) else Raise Overflow.
Proof.
  intros H. unfold box_checked.
  destruct (in_intb t) eqn:E.
  - apply in_intb_spec in E. rewrite Val_long_int by assumption.
    rewrite Long_val_odd, Z.eqb_refl. reflexivity.
  - assert (Long_val (Val_long t) <> t) as Hne.
    { unfold Val_long.
      replace (s64 (t * 2) + 1) with (2 * (s64 (t*2) / 2) + 1).
      2:{ unfold s64, two63, two64. lia. }
      rewrite Long_val_odd. unfold s64, in_intb, in_long, two63, two64, two62 in *. lia. }
    apply Z.eqb_neq in Hne. rewrite Hne. reflexivity.
Qed.

Ltac rng := unfold in_int, in_long, two62, two63, two64 in *; try lia; try nia.

Lemma neg_spec x : in_int x ->
  SMLNEGINT (2*x+1) = if in_intb (- x) then Ret (2 * (- x) + 1) else Raise Overflow.
Proof.
  intros H. unfold SMLNEGINT, cneg. rewrite Long_val_odd, ck_ok by rng. cbn [bind].
  apply box_checked_spec. rng.
Qed.

Lemma succ_spec x : in_int x ->
  SMLSUCCINT (2*x+1) = if in_intb (x + 1) then Ret (2 * (x + 1) + 1) else Raise Overflow.
Proof.
  intros H. unfold SMLSUCCINT, cadd. rewrite Long_val_odd, ck_ok by rng. cbn [bind].
  apply box_checked_spec. rng.
Qed.

Lemma pred_spec x : in_int x ->
  SMLPREDINT (2*x+1) = if in_intb (x - 1) then Ret (2 * (x - 1) + 1) else Raise Overflow.
Proof.
  intros H. unfold SMLPREDINT, csub. rewrite Long_val_odd, ck_ok by rng. cbn [bind].
  apply box_checked_spec. rng.
Qed.

Lemma add_spec x y : in_int x -> in_int y ->
  SMLADDINT (2*x+1) (2*y+1) =
  if in_intb (x + y) then Ret (2 * (x + y) + 1) else Raise Overflow.
Proof.
  intros H H'. unfold SMLADDINT, cadd. rewrite !Long_val_odd, ck_ok by rng. cbn [bind].
  apply box_checked_spec. rng.
Qed.

Lemma sub_spec x y : in_int x -> in_int y ->
  SMLSUBINT (2*x+1) (2*y+1) =
  if in_intb (x - y) then Ret (2 * (x - y) + 1) else Raise Overflow.
Proof.
  intros H H'. unfold SMLSUBINT, csub. rewrite !Long_val_odd, ck_ok by rng. cbn [bind].
  apply box_checked_spec. rng.
Qed.

(** *** multiplication *)

(** the chunked multiplication of two non-negative numbers, after sign handling *)
Definition mul_core (x y : Z) (isNegative : bool) : outcome Z :=
  let '(x, y) := if y >? x then (y, x) else (x, y) in
  if y >? MaxChunk then Raise Overflow
  else if x <=? MaxChunk then
    do p <- cmul x y;
    do r <- (if isNegative : bool then cneg p else Ret p);
    Ret (Val_long r)
  else
    do tmp <- cmul (Z.shiftr x ChunkLen) y;
    if tmp >? MaxChunk + 1 then Raise Overflow
    else
      do hi <- ck (Z.shiftl tmp ChunkLen);
      do lo <- cmul (Z.land x MaxChunk) y;
      do tmp <- cadd hi lo;
      do tmp <- (if isNegative : bool then cneg tmp else Ret tmp);
      box_checked tmp.

Lemma mul_core_spec a b neg :
  0 <= a <= two62 -> 0 <= b <= two62 ->
  ~ (neg = true /\ a = 2147483648 /\ b = 2147483648) ->
  let z := if neg then - (a * b) else a * b in
  mul_core a b neg = if in_intb z then Ret (2 * z + 1) else Raise Overflow.
Proof.
  intros Ha Hb Hex z.
  unfold mul_core.
  set (p := if b >? a then (b, a) else (a, b)).
  assert (exists x y, p = (x, y) /\ x * y = a * b /\ 0 <= y <= x /\ x <= two62 /\
          ~ (neg = true /\ x = 2147483648 /\ y = 2147483648)) as (x & y & Hp & Hxy & Hyx & Hx & Hex').
  { unfold p. destruct (b >? a) eqn:E; [exists b, a | exists a, b]; repeat split; try lia;
    intros (?&?&?); apply Hex; auto. }
  rewrite Hp. clear p Hp.
  assert (Hz : z = if neg then - (x * y) else x * y) by (unfold z; rewrite Hxy; reflexivity).
  clearbody z. subst z. clear Ha Hb Hex Hxy a b.
  unfold MaxChunk, ChunkLen in *.
  destruct (Z.gtb_spec y 2147483647) as [Hy|Hy].
  { (* both at least 2^31 *)
    assert (4611686018427387904 <= x * y) by nia.
    assert (in_intb (if neg then - (x*y) else x * y) = false) as ->; [|reflexivity].
    unfold in_intb, two62. destruct neg; [|lia].
    destruct (Z.eq_dec x 2147483648) as [->|]; [lia|].
    assert (4611686018427387904 < x * y) by nia. lia. }
  destruct (Z.leb_spec x 2147483647) as [Hx2|Hx2].
  { assert (0 <= x * y <= 2147483647 * 2147483647) by nia.
    assert (in_intb (if neg then - (x*y) else x * y) = true) as Hin.
    { unfold in_intb, two62. destruct neg; lia. }
    rewrite Hin. unfold cmul, cneg. rewrite ck_ok by rng. cbn [bind].
    destruct neg; cbn [bind].
    - rewrite ck_ok by rng. cbn [bind]. rewrite Val_long_int; [reflexivity|]. rng.
    - rewrite Val_long_int; [reflexivity|]. rng. }
  unfold cmul, cadd, cneg.
  rewrite Z.shiftr_div_pow2 by lia. change (2^31) with 2147483648.
  set (xh := x / 2147483648).
  assert (0 <= xh <= 2147483648) by (unfold xh, two62 in *; lia).
  assert (0 <= xh * y <= 2147483648 * 2147483647) by nia.
  rewrite ck_ok by rng. cbn [bind].
  change 2147483647 with (Z.ones 31) at 2. rewrite Z.land_ones by lia.
  change (2^31) with 2147483648.
  set (xl := x mod 2147483648).
  assert (x = 2147483648 * xh + xl) as Hdec by (unfold xh, xl; lia).
  assert (0 <= xl <= 2147483647) by (unfold xl; lia).
  assert (0 <= xl * y <= 2147483647 * 2147483647) by nia.
  destruct (Z.gtb_spec (xh * y) (2147483647 + 1)) as [Ht|Ht].
  { assert (4611686018427387904 < x * y) by nia.
    assert (in_intb (if neg then - (x*y) else x * y) = false) as ->; [|reflexivity].
    unfold in_intb, two62. destruct neg; lia. }
  rewrite Z.shiftl_mul_pow2 by lia. change (2^31) with 2147483648.
  rewrite ck_ok by rng. cbn [bind].
  rewrite ck_ok by rng. cbn [bind].
  assert (xh * y * 2147483648 + xl * y = x * y) as Hsum by (rewrite Hdec; ring).
  rewrite Hsum. rewrite ck_ok by rng. cbn [bind].
  destruct neg; cbn [bind].
  - rewrite ck_ok by rng. cbn [bind]. rewrite box_checked_spec by rng. reflexivity.
  - rewrite box_checked_spec by rng. reflexivity.
Qed.

Lemma mul_spec x y : in_int x -> in_int y ->
  ~ (x = 2147483648 /\ y = -2147483648) -> ~ (x = -2147483648 /\ y = 2147483648) ->
  SMLMULINT (2*x+1) (2*y+1) =
  if in_intb (x * y) then Ret (2 * (x * y) + 1) else Raise Overflow.
Proof.
  intros Hx Hy He1 He2.
  assert (Hmc : forall a b n,
    (do yn <- Ret (b, n); let '(y, isNegative) := yn in mul_core a y isNegative) = mul_core a b n)
    by reflexivity.
  unfold SMLMULINT. rewrite !Long_val_odd.
  destruct (Z.ltb_spec x 0); unfold cneg at 1; [rewrite ck_ok by rng|]; cbn [bind];
  (destruct (Z.ltb_spec y 0); unfold cneg at 1; [rewrite ck_ok by rng|]; cbn [bind negb]).
  - change (mul_core (-x) (-y) false = if in_intb (x * y) then Ret (2 * (x * y) + 1) else Raise Overflow).
    rewrite mul_core_spec by (rng; intuition congruence).
    replace (-x * -y) with (x * y) by ring. reflexivity.
  - change (mul_core (-x) y true = if in_intb (x * y) then Ret (2 * (x * y) + 1) else Raise Overflow).
    rewrite mul_core_spec by rng.
    replace (-(-x * y)) with (x * y) by ring. reflexivity.
  - change (mul_core x (-y) true = if in_intb (x * y) then Ret (2 * (x * y) + 1) else Raise Overflow).
    rewrite mul_core_spec by rng.
    replace (-(x * -y)) with (x * y) by ring. reflexivity.
  - change (mul_core x y false = if in_intb (x * y) then Ret (2 * (x * y) + 1) else Raise Overflow).
    rewrite mul_core_spec by (rng; intuition congruence).
    reflexivity.
Qed.

(** *** division *)

Lemma cquot_ok a b : in_int a \/ a = two62 -> 0 < b -> 0 <= a -> cquot a b = Ret (a / b).
Proof.
  intros Ha Hb H0. unfold cquot.
  destruct (Z.eqb_spec b 0); [lia|].
  rewrite Z.quot_div_nonneg by lia. apply ck_ok.
  assert (0 <= a / b) by (apply Z.div_pos; lia).
  assert (a / b <= a) by (apply Z.div_le_upper_bound; nia).
  unfold in_long, in_int, two62, two63 in *. lia.
Qed.

Lemma crem_ok a b : in_int a \/ a = two62 -> 0 < b -> 0 <= a -> crem a b = Ret (a mod b).
Proof.
  intros Ha Hb H0. unfold crem.
  destruct (Z.eqb_spec b 0); [lia|].
  rewrite Z.quot_div_nonneg, Z.rem_mod_nonneg by lia.
  assert (0 <= a / b) by (apply Z.div_pos; lia).
  assert (a / b <= a) by (apply Z.div_le_upper_bound; nia).
  assert (0 <= a mod b <= a) by (split; [apply Z.mod_pos_bound; lia| apply Z.mod_le; lia]).
  assert (in_longb (a / b) = true) as ->.
  { apply in_longb_spec. unfold in_long, in_int, two62, two63 in *. lia. }
  apply ck_ok. unfold in_long, in_int, two62, two63 in *. lia.
Qed.

(** floor division of any [a] by positive [b] computed as in the C code *)
Lemma div_neg_num a b : a < 0 -> 0 < b ->
  a / b = if (- a) mod b =? 0 then - ((- a) / b) else - ((- a) / b) - 1.
Proof.
  intros Ha Hb. destruct (Z.eqb_spec ((-a) mod b) 0) as [E|E].
  - pose proof (Z.div_mod (-a) b ltac:(lia)) as D.
    assert (a = b * (- ((-a)/b))) as -> by lia.
    rewrite Z.mul_comm, Z.div_mul by lia.
    rewrite <- Z.mul_opp_l. rewrite Z.div_mul by lia. lia.
  - symmetry. apply Z.div_unique with (r := b - (-a) mod b).
    + left. pose proof (Z.mod_pos_bound (-a) b Hb). lia.
    + pose proof (Z.div_mod (-a) b ltac:(lia)) as D. nia.
Qed.

Lemma mod_neg_num a b : a < 0 -> 0 < b ->
  a mod b = if (- a) mod b =? 0 then 0 else b - (- a) mod b.
Proof.
  intros Ha Hb. rewrite (Z.mod_eq a b) by lia. rewrite (div_neg_num a b Ha Hb).
  pose proof (Z.div_mod (-a) b ltac:(lia)) as D.
  destruct (Z.eqb_spec ((-a) mod b) 0) as [E|E]; nia.
Qed.

Lemma div_abs_bound a b : 0 < b -> - Z.abs a <= a / b <= Z.abs a.
Proof. intros. split; [apply Z.div_le_lower_bound|apply Z.div_le_upper_bound]; nia. Qed.

Lemma div_core a b : (in_int a \/ a = two62) -> 0 < b -> b <= two62 ->
  (do tmp <-
      (if a >=? 0 then cquot a b
       else
         do accu <- cneg a;
         do r <- crem accu b;
         do q <- cquot accu b;
         if r =? 0 then cneg q else do nq <- cneg q; csub nq 1);
    box_checked tmp) = if in_intb (a / b) then Ret (2 * (a / b) + 1) else Raise Overflow.
Proof.
  intros Ha Hb Hb2. rewrite Z.geb_leb.
  pose proof (div_abs_bound a b Hb) as Hab.
  destruct (Z.leb_spec 0 a) as [H|H].
  - rewrite cquot_ok by assumption. cbn [bind]. apply box_checked_spec. rng.
  - unfold cneg at 1. rewrite ck_ok by rng. cbn [bind].
    assert (in_int (-a) \/ -a = two62) by rng.
    rewrite crem_ok, cquot_ok by (try assumption; lia). cbn [bind].
    rewrite (div_neg_num a b) in * by assumption.
    destruct (Z.eqb_spec ((-a) mod b) 0).
    + unfold cneg. rewrite ck_ok by rng. cbn [bind]. apply box_checked_spec. rng.
    + unfold cneg, csub. rewrite ck_ok by rng. cbn [bind]. rewrite ck_ok by rng. cbn [bind].
      apply box_checked_spec. rng.
Qed.

Lemma div_spec x y : in_int x -> in_int y -> y <> 0 ->
  SMLDIVINT (2*x+1) (2*y+1) =
  if in_intb (x / y) then Ret (2 * (x / y) + 1) else Raise Overflow.
Proof.
  intros Hx Hy Hy0. unfold SMLDIVINT. rewrite !Long_val_odd.
  destruct (Z.eqb_spec y 0); [contradiction|].
  destruct (Z.ltb_spec y 0) as [Hn|Hn].
  - unfold cneg at 1 2. rewrite ck_ok by rng. cbn [bind]. rewrite ck_ok by rng. cbn [bind].
    rewrite <- (Z.div_opp_opp x y) by lia. apply div_core; rng.
  - cbn [bind]. apply div_core; rng.
Qed.

Lemma div_zero x : SMLDIVINT x 1 = Raise Div.
Proof. reflexivity. Qed.

Lemma mod_core a b : (in_int a \/ a = two62) -> 0 < b -> b <= two62 ->
  (if a >=? 0 then crem a b
       else
         do na <- cneg a;
         do accu <- crem na b;
         if accu =? 0 then Ret 0 else csub b accu) = Ret (a mod b).
Proof.
  intros Ha Hb Hb2. rewrite Z.geb_leb.
  destruct (Z.leb_spec 0 a) as [H|H].
  - now rewrite crem_ok.
  - unfold cneg at 1. rewrite ck_ok by rng. cbn [bind].
    assert (in_int (-a) \/ -a = two62) by rng.
    rewrite crem_ok by (try assumption; lia). cbn [bind].
    rewrite (mod_neg_num a b) by assumption.
    destruct (Z.eqb_spec ((-a) mod b) 0); [reflexivity|].
    pose proof (Z.mod_pos_bound (-a) b Hb).
    unfold csub. rewrite ck_ok by rng. reflexivity.
Qed.

Lemma mod_spec x y : in_int x -> in_int y -> y <> 0 ->
  SMLMODINT (2*x+1) (2*y+1) = Ret (2 * (x mod y) + 1).
Proof.
  intros Hx Hy Hy0. unfold SMLMODINT. rewrite !Long_val_odd.
  destruct (Z.eqb_spec y 0); [contradiction|].
  destruct (Z.ltb_spec y 0) as [Hn|Hn].
  - unfold cneg at 1 2. rewrite ck_ok by rng. cbn [bind]. rewrite ck_ok by rng. cbn [bind].
    rewrite mod_core by rng. cbn [bind].
    pose proof (Z.mod_pos_bound (-x) (-y) ltac:(lia)).
    unfold cneg. rewrite ck_ok by rng. cbn [bind]. rewrite box_checked_spec by rng.
    assert (- ((-x) mod (-y)) = x mod y) as Hm by (rewrite Z.mod_opp_opp by lia; lia).
    rewrite Hm.
    assert (in_intb (x mod y) = true) as ->; [|reflexivity].
    apply in_intb_spec. rng.
  - cbn [bind]. rewrite mod_core by rng. cbn [bind].
    pose proof (Z.mod_pos_bound x y ltac:(lia)).
    rewrite box_checked_spec by rng.
    assert (in_intb (x mod y) = true) as ->; [|reflexivity].
    apply in_intb_spec. rng.
Qed.

Lemma mod_zero x : SMLMODINT x 1 = Raise Div.
Proof. reflexivity. Qed.

Lemma quot_spec x y : in_int x -> in_int y -> y <> 0 ->
  SMLQUOTINT (2*x+1) (2*y+1) =
  if in_intb (Z.quot x y) then Ret (2 * (Z.quot x y) + 1) else Raise Overflow.
Proof.
  intros Hx Hy Hy0. unfold SMLQUOTINT, csub.
  rewrite ck_ok by rng. cbn [bind].
  destruct (Z.eqb_spec (2*y+1-1) 0); [lia|].
  rewrite ck_ok by rng. cbn [bind].
  replace (2*x+1-1) with (2*x) by lia. replace (2*y+1-1) with (2*y) by lia.
  unfold cquot. destruct (Z.eqb_spec (2*y) 0); [lia|].
  rewrite Z.quot_mul_cancel_l by lia.
  assert (Hq : Z.abs (Z.quot x y) <= Z.abs x).
  { rewrite <- Z.quot_abs by lia.
    rewrite Z.quot_div_nonneg by lia. apply Z.div_le_upper_bound; nia. }
  rewrite ck_ok by rng. cbn [bind]. apply box_checked_spec. rng.
Qed.

Lemma rem_spec x y : in_int x -> in_int y -> y <> 0 ->
  SMLREMINT (2*x+1) (2*y+1) = Ret (2 * (Z.rem x y) + 1).
Proof.
  intros Hx Hy Hy0. unfold SMLREMINT, csub.
  rewrite ck_ok by rng. cbn [bind].
  destruct (Z.eqb_spec (2*y+1-1) 0); [lia|].
  rewrite ck_ok by rng. cbn [bind].
  replace (2*x+1-1) with (2*x) by lia. replace (2*y+1-1) with (2*y) by lia.
  unfold crem, cadd. destruct (Z.eqb_spec (2*y) 0); [lia|].
  rewrite Z.quot_mul_cancel_l by lia.
  assert (Hq : Z.abs (Z.quot x y) <= Z.abs x).
  { rewrite <- Z.quot_abs by lia.
    rewrite Z.quot_div_nonneg by lia. apply Z.div_le_upper_bound; nia. }
  assert (in_longb (Z.quot x y) = true) as ->.
  { apply in_longb_spec. rng. }
  rewrite Z.mul_rem_distr_l by lia.
  assert (Hr : Z.abs (Z.rem x y) < Z.abs y) by (apply Z.rem_bound_abs; lia).
  rewrite ck_ok by rng. cbn [bind]. rewrite ck_ok by rng. f_equal. lia.
Qed.

Lemma quot_zero x : in_long x -> SMLQUOTINT x 1 = Raise Div.
Proof. reflexivity. Qed.
Lemma rem_zero x : in_long x -> SMLREMINT x 1 = Raise Div.
Proof. reflexivity. Qed.
