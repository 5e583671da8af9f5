(** Proofs about the date model: the formulas count the days of the calendar. *)
From Verif Require Import Base Arith_Model Arith_Proofs Scan_Model Scan_Proofs Date_Model Date_Spec.

(** *** Checked arithmetic: a computation returns [v], or raises Overflow unless [P]. *)
Definition gives {A} (P : Prop) (m : outcome A) (v : A) : Prop := m = Ret v \/ ~ P /\ m = Raise Overflow.

Lemma gives_ret {A} P (v : A) : gives P (Ret v) v.
Proof. now left. Qed.
Lemma gives_bind {A B} P (m : outcome A) (v : A) (k : A -> outcome B) (w : B) :
  gives P m v -> gives P (k v) w -> gives P (do a <- m; k a) w.
Proof. intros [-> | [N ->]] H; [exact H|]. right. now split. Qed.
Lemma gives_add (P : Prop) x y : in_int x -> in_int y -> (P -> in_int (x + y)) -> gives P (iadd x y) (x + y).
Proof.
  intros Hx Hy HP. rewrite iadd_eq by assumption. destruct (in_intb (x + y)) eqn:E; [now left|].
  right. split; [|reflexivity]. intros p. apply HP, in_intb_yes in p. congruence.
Qed.
Lemma gives_sub (P : Prop) x y : in_int x -> in_int y -> (P -> in_int (x - y)) -> gives P (isub x y) (x - y).
Proof.
  intros Hx Hy HP. rewrite isub_eq by assumption. destruct (in_intb (x - y)) eqn:E; [now left|].
  right. split; [|reflexivity]. intros p. apply HP, in_intb_yes in p. congruence.
Qed.
Lemma gives_mul (P : Prop) x y : in_int x -> in_int y -> (-1000 <= x <= 1000 \/ -1000 <= y <= 1000) ->
  (P -> in_int (x * y)) -> gives P (imul x y) (x * y).
Proof.
  intros Hx Hy Hs HP. unfold imul. rewrite !Val_long_int, mul_spec by (assumption || lia).
  rewrite unbox_if. destruct (in_intb (x * y)) eqn:E; [now left|].
  right. split; [|reflexivity]. intros p. apply HP, in_intb_yes in p. congruence.
Qed.

(** step rules: the continuation may use that the intermediate result is in range *)
Lemma step_add {B} (P : Prop) x y (k : Z -> outcome B) w : in_int x -> in_int y -> (P -> in_int (x + y)) ->
  (in_int (x + y) -> gives P (k (x + y)) w) -> gives P (do a <- iadd x y; k a) w.
Proof.
  intros Hx Hy HP Hk. rewrite iadd_eq by assumption. destruct (in_intb (x + y)) eqn:E; cbn [bind].
  - apply Hk. now apply in_intb_spec.
  - right. split; [|reflexivity]. intros p. apply HP, in_intb_yes in p. congruence.
Qed.
Lemma step_sub {B} (P : Prop) x y (k : Z -> outcome B) w : in_int x -> in_int y -> (P -> in_int (x - y)) ->
  (in_int (x - y) -> gives P (k (x - y)) w) -> gives P (do a <- isub x y; k a) w.
Proof.
  intros Hx Hy HP Hk. rewrite isub_eq by assumption. destruct (in_intb (x - y)) eqn:E; cbn [bind].
  - apply Hk. now apply in_intb_spec.
  - right. split; [|reflexivity]. intros p. apply HP, in_intb_yes in p. congruence.
Qed.
Lemma step_mul {B} (P : Prop) x y (k : Z -> outcome B) w : in_int x -> in_int y ->
  (-1000 <= x <= 1000 \/ -1000 <= y <= 1000) -> (P -> in_int (x * y)) ->
  (in_int (x * y) -> gives P (k (x * y)) w) -> gives P (do a <- imul x y; k a) w.
Proof.
  intros Hx Hy Hs HP Hk. unfold imul. rewrite !Val_long_int, mul_spec by (assumption || lia).
  rewrite unbox_if. destruct (in_intb (x * y)) eqn:E; cbn [bind].
  - apply Hk. now apply in_intb_spec.
  - right. split; [|reflexivity]. intros p. apply HP, in_intb_yes in p. congruence.
Qed.

(** *** Pure versions *)
Definition lp (y : Z) : Z := if leapyear y then 1 else 0.
Definition before (y : Z) (m : month) : Z :=
  match m with
  | Jan => 0 | Feb => 31 | Mar => 59 + lp y | Apr => 90 + lp y | May => 120 + lp y | Jun => 151 + lp y
  | Jul => 181 + lp y | Aug => 212 + lp y | Sep => 243 + lp y | Oct => 273 + lp y | Nov => 304 + lp y
  | Dec => 334 + lp y
  end.
Definition mlen (y : Z) (m : month) : Z :=
  match m with Apr | Jun | Sep | Nov => 30 | Feb => 28 + lp y | _ => 31 end.
Definition diy (y : Z) (m : month) (d : Z) : Z := d - 1 + before y m.
Definition ystart (y : Z) : Z := 365 * (y - 1) + (y - 1) / 4 - (y - 1) / 100 + (y - 1) / 400 + 1.
Definition tdn (y : Z) (m : month) (d : Z) : Z := ystart y + diy y m d.

Lemma lp_01 y : lp y = 0 \/ lp y = 1.
Proof. unfold lp. destruct (leapyear y); lia. Qed.

Lemma leap_iff y : leap y <-> leapyear y = true.
Proof.
  unfold leap, leapyear.
  assert (forall k, 0 < k -> (k | y) <-> y mod k = 0) as D by (intros; symmetry; apply Z.mod_divide; lia).
  rewrite !D by lia. lia.
Qed.

Lemma leap_lp y : (leap y /\ lp y = 1) \/ (~ leap y /\ lp y = 0).
Proof. rewrite leap_iff. unfold lp. destruct (leapyear y); [left|right]; now split. Qed.

Lemma mlen_spec y m n : month_length y m n <-> n = mlen y m.
Proof.
  destruct m; cbn [month_length mlen]; try tauto.
  destruct (leap_lp y) as [[H ->]|[H ->]]; intuition lia.
Qed.

Lemma mlen_range y m : 28 <= mlen y m <= 31.
Proof. destruct m; cbn [mlen]; destruct (lp_01 y); lia. Qed.

Lemma valid_iff y m d : valid_day (y, m, d) <-> 1 <= d <= mlen y m.
Proof.
  cbn [valid_day]. split.
  - intros (n & H%mlen_spec & R). now subst.
  - intros H. exists (mlen y m). split; [now apply mlen_spec|assumption].
Qed.

Definition nextd (x : ymd) : ymd :=
  let '(y, m, d) := x in
  if d <? mlen y m then (y, m, d + 1)
  else match m with Dec => (y + 1, Jan, 1) | _ => (y, next_month m, 1) end.

Lemma after_iff x x' : valid_day x -> day_after x x' <-> x' = nextd x.
Proof.
  destruct x as [[y m] d]. rewrite valid_iff. intros V. cbn [day_after nextd]. split.
  - intros (n & H%mlen_spec & C). subst n. destruct C as [[L ->]|[(E & N & ->)|(E & -> & ->)]].
    + now rewrite (proj2 (Z.ltb_lt _ _) L).
    + rewrite (proj2 (Z.ltb_ge _ _)) by lia. now destruct m.
    + rewrite (proj2 (Z.ltb_ge _ _)) by lia. reflexivity.
  - intros ->. exists (mlen y m). split; [now apply mlen_spec|].
    destruct (Z.ltb_spec d (mlen y m)); [left; split; [assumption|reflexivity]|].
    right. assert (d = mlen y m) by lia.
    destruct m; try (left; split; [assumption|split; [discriminate|reflexivity]]).
    right. repeat split. assumption.
Qed.

(** a year after a leap year starts one day later *)
Lemma ystart_next y : ystart (y + 1) = ystart y + 365 + lp y.
Proof.
  unfold ystart, lp, leapyear. replace (y + 1 - 1) with y by lia.
  destruct (Z.eqb_spec (y mod 4) 0), (Z.eqb_spec (y mod 100) 0), (Z.eqb_spec (y mod 400) 0);
    cbn [negb andb orb]; lia.
Qed.

Lemma tdn_next y m d : valid_day (y, m, d) ->
  (let '(y', m', d') := nextd (y, m, d) in tdn y' m' d') = tdn y m d + 1.
Proof.
  rewrite valid_iff. intros V. cbn [nextd]. destruct (Z.ltb_spec d (mlen y m)).
  - unfold tdn, diy. lia.
  - assert (d = mlen y m) as -> by lia.
    destruct m; cbn [next_month]; unfold tdn, diy; cbn [before mlen]; rewrite ?ystart_next; lia.
Qed.

Lemma nextd_valid x : valid_day x -> valid_day (nextd x).
Proof.
  destruct x as [[y m] d]. rewrite valid_iff. intros V. cbn [nextd].
  destruct (Z.ltb_spec d (mlen y m)).
  - apply valid_iff. lia.
  - destruct m; apply valid_iff;
      match goal with |- context [mlen ?a ?b] => pose proof (mlen_range a b) end; lia.
Qed.

Lemma tdn_linear y m d k : tdn y m (d + k) = tdn y m d + k.
Proof. unfold tdn, diy. lia. Qed.

(** *** Day number to date *)
Lemma tomonth_of m : tomonth (frommonth m) = Ret m.
Proof. now destruct m. Qed.
Lemma monthdays_eq y m : monthdays y m = Ret (mlen y m).
Proof. unfold monthdays, lp; destruct m; cbn; unfold lp; destruct (leapyear y); reflexivity. Qed.

Definition month_rank (m : month) : nat := Z.to_nat (12 - frommonth m).

Lemma int_small x : -1000000 <= x <= 1000000 -> in_int x.
Proof. unfold in_int, two62. lia. Qed.

Lemma monthloop_ok y : forall fuel m d, (month_rank m < fuel)%nat -> 1 <= d ->
  d + before y m <= 365 + lp y ->
  exists m' d', monthloop fuel y (frommonth m) d = Ret (y, m', d') /\ valid_day (y, m', d') /\
    diy y m' d' = diy y m d.
Proof.
  induction fuel as [|fuel IH]; intros m d Hf Hd Hr; [lia|].
  cbn [monthloop]. rewrite tomonth_of. cbn [bind]. rewrite monthdays_eq. cbn [bind].
  destruct (Z.ltb_spec (mlen y m) d) as [L|L].
  - assert (m <> Dec) as ND by (intros ->; cbn [mlen before] in *; lia).
    pose proof (mlen_range y m). pose proof (lp_01 y).
    assert (0 <= before y m) by (destruct m; cbn [before]; lia).
    rewrite iadd_eq by (apply int_small; destruct m; cbn [frommonth]; lia).
    rewrite in_intb_yes by (apply int_small; destruct m; cbn [frommonth]; lia). cbn [bind].
    rewrite isub_eq by (apply int_small; lia). rewrite in_intb_yes by (apply int_small; lia).
    cbn [bind].
    destruct (IH (next_month m) (d - mlen y m)) as (m' & d' & E & V & Y).
    + destruct m; cbv in Hf |- *; try lia. now elim ND.
    + lia.
    + destruct m; cbn [next_month before mlen] in *; try lia; now elim ND.
    + exists m', d'. split; [|split; [assumption|]].
      * rewrite <- E. f_equal. destruct m; try reflexivity; now elim ND.
      * rewrite Y. unfold diy. destruct m; cbn [next_month before mlen] in *; try lia; now elim ND.
  - exists m, d. split; [reflexivity|]. split; [|reflexivity].
    apply valid_iff. lia.
Qed.

Definition big : Z := 1125899906842624. (* 2^50 *)

Ltac range := unfold in_int, two62, big in *; lia.

Lemma fromdaynumber_ok (P : Prop) n : in_int n -> (P -> - big * 1000 <= n <= big * 1000) ->
  exists y m d, gives P (fromdaynumber n) (y, m, d) /\ valid_day (y, m, d) /\ tdn y m d = n.
Proof.
  intros Hn HP.
  set (n400 := (n - 1) / 146097). set (d1 := (n - 1) mod 146097).
  set (n100 := d1 / 36524). set (d2 := d1 mod 36524).
  set (n4 := d2 / 1461). set (d3 := d2 mod 1461).
  set (n1 := d3 / 365). set (r := d3 mod 365).
  assert (n - 1 = 146097 * n400 + d1 /\ 0 <= d1 < 146097) as [E0 R0] by (unfold n400, d1; lia).
  assert (d1 = 36524 * n100 + d2 /\ 0 <= d2 < 36524 /\ 0 <= n100 <= 4) as (E1 & R1 & R1') by (unfold n100, d2; lia).
  assert (d2 = 1461 * n4 + d3 /\ 0 <= d3 < 1461 /\ 0 <= n4 <= 24) as (E2 & R2 & R2') by (unfold n4, d3; lia).
  assert (d3 = 365 * n1 + r /\ 0 <= r < 365 /\ 0 <= n1 <= 4) as (E3 & R3 & R3') by (unfold n1, r; lia).
  set (Y := 400 * n400 + 100 * n100 + n4 * 4 + n1 + 1).
  assert (HY : n100 <> 4 -> n1 <> 4 -> ystart Y + r = n).
  { intros N1 N2. unfold ystart, Y.
    replace (400 * n400 + 100 * n100 + n4 * 4 + n1 + 1 - 1) with (400 * n400 + 100 * n100 + 4 * n4 + n1) by lia.
    assert ((400 * n400 + 100 * n100 + 4 * n4 + n1) / 4 = 100 * n400 + 25 * n100 + n4) as -> by lia.
    assert ((400 * n400 + 100 * n100 + 4 * n4 + n1) / 100 = 4 * n400 + n100) as -> by lia.
    assert ((400 * n400 + 100 * n100 + 4 * n4 + n1) / 400 = n400) as -> by lia.
    lia. }
  assert (H4 : (n100 =? 4) || (n1 =? 4) = true -> ystart Y = n + 1).
  { intros C. unfold ystart, Y.
    replace (400 * n400 + 100 * n100 + n4 * 4 + n1 + 1 - 1) with (400 * n400 + 100 * n100 + 4 * n4 + n1) by lia.
    assert (n100 = 4 /\ n4 = 0 /\ n1 = 0 /\ r = 0 \/ n100 < 4 /\ n1 = 4 /\ r = 0 /\ n4 < 24
            \/ n100 = 3 /\ n1 = 4 /\ r = 0) as D by lia.
    assert ((400 * n400 + 100 * n100 + 4 * n4 + n1) / 4 = 100 * n400 + 25 * n100 + n4 + (if n1 =? 4 then 1 else 0)) as -> by (destruct (Z.eqb_spec n1 4); lia).
    assert (n4 <= 23 \/ n100 = 4) as Q by lia.
    assert ((400 * n400 + 100 * n100 + 4 * n4 + n1) / 100 = 4 * n400 + n100) as -> by lia.
    assert ((400 * n400 + 100 * n100 + 4 * n4 + n1) / 400 = n400 + (if n100 =? 4 then 1 else 0)) as -> by (destruct (Z.eqb_spec n100 4); lia).
    destruct (Z.eqb_spec n1 4), (Z.eqb_spec n100 4); lia. }
  assert (HL : (n100 =? 4) || (n1 =? 4) = true -> lp (Y - 1) = 1).
  { intros C. unfold lp, leapyear.
    assert (n100 = 4 /\ n4 = 0 /\ n1 = 0 /\ r = 0 \/ n100 < 4 /\ n1 = 4 /\ r = 0 /\ n4 <= 23) as D by lia.
    assert (Y - 1 = 400 * n400 + 100 * n100 + 4 * n4 + n1) as -> by (unfold Y; lia).
    destruct (Z.eqb_spec ((400 * n400 + 100 * n100 + 4 * n4 + n1) mod 4) 0),
      (Z.eqb_spec ((400 * n400 + 100 * n100 + 4 * n4 + n1) mod 100) 0),
      (Z.eqb_spec ((400 * n400 + 100 * n100 + 4 * n4 + n1) mod 400) 0); cbn [negb andb orb]; lia. }
  assert (Hfd : exists res, gives P (fromdaynumber n) res /\
    (((n100 =? 4) || (n1 =? 4) = true /\ res = (Y - 1, Dec, 31)) \/
     ((n100 =? 4) || (n1 =? 4) = false /\ monthloop 13 Y (frommonth Jan) (1 + r) = Ret res))).
  { destruct ((n100 =? 4) || (n1 =? 4)) eqn:C.
    - exists (Y - 1, Dec, 31). split; [|left; now split].
      unfold fromdaynumber.
      apply step_sub; [assumption|range|range|intros I1].
      cbn zeta. fold n400 d1. fold n100 d2. fold n4 d3. fold n1 r. rewrite C.
      apply step_add; [range|range|range|intros I2].
      apply step_mul; [range|range|lia|range|intros I3].
      apply step_mul; [range|range|lia|range|intros I4].
      apply step_add; [range|range|range|intros I5].
      apply step_mul; [range|range|lia|range|intros I6].
      apply step_add; [range|range|range|intros I7].
      apply step_add; [range|range|range|intros I8].
      apply step_add; [range|range|range|intros I9].
      apply step_sub; [range|range|range|intros I10].
      apply gives_ret.
    - destruct (monthloop_ok Y 13 Jan (1 + r)) as (m' & d' & E & V & Yd).
      + cbv; lia.
      + lia.
      + cbn [before]. pose proof (lp_01 Y). lia.
      + exists (Y, m', d'). split; [|right; now split].
        unfold fromdaynumber.
        apply step_sub; [assumption|range|range|intros I1].
        cbn zeta. fold n400 d1. fold n100 d2. fold n4 d3. fold n1 r. rewrite C.
        apply step_add; [range|range|range|intros I2].
        apply step_mul; [range|range|lia|range|intros I3].
        apply step_mul; [range|range|lia|range|intros I4].
        apply step_add; [range|range|range|intros I5].
        apply step_mul; [range|range|lia|range|intros I6].
        apply step_add; [range|range|range|intros I7].
        apply step_add; [range|range|range|intros I8].
        apply step_add; [range|range|range|intros I9].
        fold Y. change (monthloop 13 Y 0 (1 + r)) with (monthloop 13 Y (frommonth Jan) (1 + r)). rewrite E. apply gives_ret. }
  destruct Hfd as (res & G & [[C ->]|[C E]]).
  - exists (Y - 1), Dec, 31. split; [exact G|]. split.
    + apply valid_iff. cbn [mlen]. lia.
    + specialize (H4 C). specialize (HL C). unfold tdn, diy. cbn [before].
      pose proof (ystart_next (Y - 1)) as N. replace (Y - 1 + 1) with Y in N by lia. lia.
  - destruct (monthloop_ok Y 13 Jan (1 + r)) as (m' & d' & E' & V & Yd).
    + cbv; lia.
    + lia.
    + cbn [before]. pose proof (lp_01 Y). lia.
    + rewrite E' in E. injection E as <-. exists Y, m', d'. split; [exact G|]. split; [exact V|].
      unfold tdn. rewrite Yd. unfold diy. cbn [before]. rewrite <- HY by lia. lia.
Qed.
