(** Proofs about the date model, continued: numbering of days, days of the week, Date.date. *)
From Verif Require Import Base Arith_Model Arith_Proofs Scan_Model Scan_Proofs Date_Model Date_Spec Date_Proofs.

Definition num (x : ymd) : Z := let '(y, m, d) := x in tdn y m d.

Lemma num_nextd x : valid_day x -> num (nextd x) = num x + 1.
Proof. destruct x as [[y m] d]. exact (tdn_next y m d). Qed.

(** *** order *)
Lemma frommonth_inj m m' : frommonth m = frommonth m' -> m = m'.
Proof. destruct m, m'; reflexivity || discriminate. Qed.

Lemma diy_range y m d : valid_day (y, m, d) -> 0 <= diy y m d < 365 + lp y.
Proof.
  rewrite valid_iff. unfold diy. pose proof (lp_01 y). destruct m; cbn [before mlen]; lia.
Qed.

Lemma ystart_mono y y' : y < y' -> ystart y + 365 + lp y <= ystart y'.
Proof. intros H. rewrite <- ystart_next. unfold ystart. replace (y + 1 - 1) with y by lia. lia. Qed.

Lemma before_mono y m m' : frommonth m < frommonth m' -> before y m + mlen y m <= before y m'.
Proof.
  pose proof (lp_01 y).
  destruct m, m'; cbn [frommonth before mlen]; lia.
Qed.

Definition lex_lt (x x' : ymd) : Prop :=
  let '(y, m, d) := x in let '(y', m', d') := x' in
  y < y' \/ y = y' /\ (frommonth m < frommonth m' \/ m = m' /\ d < d').

Lemma num_mono x x' : valid_day x -> valid_day x' -> lex_lt x x' -> num x < num x'.
Proof.
  destruct x as [[y m] d], x' as [[y' m'] d']. intros V V' L. cbn [num]. unfold tdn.
  pose proof (diy_range _ _ _ V). pose proof (diy_range _ _ _ V').
  destruct L as [L|[-> [L|[-> L]]]].
  - apply ystart_mono in L. lia.
  - apply (before_mono y') in L. apply valid_iff in V, V'. unfold diy. lia.
  - unfold diy. lia.
Qed.

Lemma lex_total x x' : lex_lt x x' \/ x = x' \/ lex_lt x' x.
Proof.
  destruct x as [[y m] d], x' as [[y' m'] d']. cbn [lex_lt].
  destruct (Z.lt_trichotomy y y') as [|[->|]]; [now left; left| |now right; right; left].
  destruct (Z.lt_trichotomy (frommonth m) (frommonth m')) as [|[E%frommonth_inj|]].
  - left; right. split; [reflexivity|now left].
  - subst m'. destruct (Z.lt_trichotomy d d') as [|[->|]].
    + left; right. split; [reflexivity|]. right. now split.
    + right; left. reflexivity.
    + right; right; right. split; [reflexivity|]. right. now split.
  - right; right; right. split; [reflexivity|now left].
Qed.

Lemma num_inj x x' : valid_day x -> valid_day x' -> num x = num x' -> x = x'.
Proof.
  intros V V' E. destruct (lex_total x x') as [L|[->|L]]; [|reflexivity|];
    apply num_mono in L; try assumption; lia.
Qed.

(** *** numbering by counting *)
Lemma valid_one : valid_day (1, Jan, 1).
Proof. apply valid_iff. cbn [mlen]. lia. Qed.

Lemma numbered_sound x n : numbered x n -> valid_day x /\ num x = n.
Proof.
  induction 1 as [|x x' n H [V E] A|x x' n H [V' E] V A].
  - split; [exact valid_one|reflexivity].
  - apply after_iff in A; [|assumption]. subst x'. split; [now apply nextd_valid|].
    rewrite num_nextd by assumption. lia.
  - split; [assumption|]. apply after_iff in A; [|assumption]. subst x'.
    rewrite num_nextd in E by assumption. lia.
Qed.

Definition prev_month (m : month) : month :=
  match m with
  | Jan => Dec | Feb => Jan | Mar => Feb | Apr => Mar | May => Apr | Jun => May
  | Jul => Jun | Aug => Jul | Sep => Aug | Oct => Sep | Nov => Oct | Dec => Nov
  end.
Definition prevd (x : ymd) : ymd :=
  let '(y, m, d) := x in
  if 1 <? d then (y, m, d - 1)
  else match m with Jan => (y - 1, Dec, 31) | _ => (y, prev_month m, mlen y (prev_month m)) end.

Lemma prevd_ok x : valid_day x -> valid_day (prevd x) /\ nextd (prevd x) = x.
Proof.
  destruct x as [[y m] d]. rewrite valid_iff. intros V. cbn [prevd].
  destruct (Z.ltb_spec 1 d).
  - rewrite valid_iff. split; [lia|]. cbn [nextd]. rewrite (proj2 (Z.ltb_lt _ _)) by lia.
    now replace (d - 1 + 1) with d by lia.
  - assert (d = 1) as -> by lia. pose proof (mlen_range y (prev_month m)).
    destruct m; cbn [prev_month] in *;
      (split; [apply valid_iff; try lia; cbn [mlen]; lia|]);
      cbn [nextd]; rewrite (proj2 (Z.ltb_ge _ _)) by (cbn [mlen]; lia); cbn [next_month]; try reflexivity.
    now replace (y - 1 + 1) with y by lia.
Qed.

Lemma numbered_all n : exists x, numbered x n.
Proof.
  assert (forall k : nat, (exists x, numbered x (1 + Z.of_nat k)) /\ exists x, numbered x (1 - Z.of_nat k)) as H.
  { induction k as [|k [[x Hx] [z Hz]]].
    - split; exists (1, Jan, 1); constructor.
    - destruct (numbered_sound _ _ Hx) as [Vx _]. destruct (numbered_sound _ _ Hz) as [Vz _].
      split.
      + exists (nextd x). replace (1 + Z.of_nat (S k)) with (1 + Z.of_nat k + 1) by lia.
        apply num_next with x; [assumption|]. now apply after_iff.
      + exists (prevd z). replace (1 - Z.of_nat (S k)) with (1 - Z.of_nat k - 1) by lia.
        destruct (prevd_ok z Vz) as [V E].
        apply num_prev with z; [assumption|assumption|]. now apply after_iff. }
  destruct (Z.le_gt_cases 1 n).
  - destruct (H (Z.to_nat (n - 1))) as [G _]. now replace (1 + Z.of_nat (Z.to_nat (n - 1))) with n in G by lia.
  - destruct (H (Z.to_nat (1 - n))) as [_ G]. now replace (1 - Z.of_nat (Z.to_nat (1 - n))) with n in G by lia.
Qed.

Lemma numbered_iff x n : numbered x n <-> valid_day x /\ num x = n.
Proof.
  split; [apply numbered_sound|]. intros [V E].
  destruct (numbered_all n) as [x' H]. destruct (numbered_sound _ _ H) as [V' E'].
  rewrite (num_inj x x'); congruence || assumption.
Qed.

(** *** days of the week *)
Definition wd (n : Z) : weekday :=
  match n mod 7 with 0 => Sun | 1 => Mon | 2 => Tue | 3 => Wed | 4 => Thu | 5 => Fri | _ => Sat end.

Lemma mod7 n : n mod 7 = 0 \/ n mod 7 = 1 \/ n mod 7 = 2 \/ n mod 7 = 3 \/ n mod 7 = 4 \/ n mod 7 = 5 \/ n mod 7 = 6.
Proof. lia. Qed.

Lemma weekday_of_eq n : weekday_of n = Ret (wd n).
Proof.
  unfold weekday_of, wd. destruct (mod7 n) as [->|[->|[->|[->|[->|[->| ->]]]]]]; reflexivity.
Qed.

Lemma wd_next n : wd (n + 1) = next_weekday (wd n).
Proof.
  unfold wd.
  assert ((n + 1) mod 7 = if n mod 7 =? 6 then 0 else n mod 7 + 1) as -> by (destruct (Z.eqb_spec (n mod 7) 6); lia).
  destruct (mod7 n) as [->|[->|[->|[->|[->|[->| ->]]]]]]; reflexivity.
Qed.

Lemma next_weekday_inj w w' : next_weekday w = next_weekday w' -> w = w'.
Proof. destruct w, w'; reflexivity || discriminate. Qed.

Lemma falls_sound x w : falls_on x w -> valid_day x /\ wd (num x) = w.
Proof.
  induction 1 as [|x x' w H [V E] A|x x' w H [V' E] V A].
  - split; [apply valid_iff; cbn [mlen]; lia|reflexivity].
  - apply after_iff in A; [|assumption]. subst x'. split; [now apply nextd_valid|].
    rewrite num_nextd, wd_next by assumption. now rewrite E.
  - split; [assumption|]. apply after_iff in A; [|assumption]. subst x'.
    rewrite num_nextd, wd_next in E by assumption. now apply next_weekday_inj.
Qed.

Lemma falls_all n : exists x, valid_day x /\ num x = n /\ falls_on x (wd n).
Proof.
  set (o := num (2000, Jan, 1)).
  assert (valid_day (2000, Jan, 1)) as Vo by (apply valid_iff; cbn [mlen]; lia).
  assert (forall k : nat, (exists x, valid_day x /\ num x = o + Z.of_nat k /\ falls_on x (wd (o + Z.of_nat k)))
    /\ exists x, valid_day x /\ num x = o - Z.of_nat k /\ falls_on x (wd (o - Z.of_nat k))) as H.
  { induction k as [|k [(x & Vx & Nx & Hx) (z & Vz & Nz & Hz)]].
    - split; exists (2000, Jan, 1); (split; [assumption|split; [reflexivity|]]);
        [change (o + Z.of_nat 0) with o|change (o - Z.of_nat 0) with o];
        change (wd o) with Sat; constructor.
    - split.
      + exists (nextd x). split; [now apply nextd_valid|]. rewrite num_nextd by assumption.
        split; [lia|]. replace (o + Z.of_nat (S k)) with (o + Z.of_nat k + 1) by lia.
        rewrite wd_next. apply fo_next with x; [assumption|]. now apply after_iff.
      + exists (prevd z). destruct (prevd_ok z Vz) as [V E]. split; [assumption|].
        pose proof (num_nextd _ V) as N. rewrite E in N. split; [lia|].
        apply fo_prev with z; [|assumption|now apply after_iff].
        rewrite <- wd_next. now replace (o - Z.of_nat (S k) + 1) with (o - Z.of_nat k) by lia. }
  destruct (Z.le_gt_cases o n).
  - destruct (H (Z.to_nat (n - o))) as [G _]. now replace (o + Z.of_nat (Z.to_nat (n - o))) with n in G by lia.
  - destruct (H (Z.to_nat (o - n))) as [_ G]. now replace (o - Z.of_nat (Z.to_nat (o - n))) with n in G by lia.
Qed.

Lemma falls_iff x w : falls_on x w <-> valid_day x /\ wd (num x) = w.
Proof.
  split; [apply falls_sound|]. intros [V E].
  destruct (falls_all (num x)) as (x' & V' & N & F). rewrite E in F.
  rewrite (num_inj x x'); congruence || assumption.
Qed.

(** *** the model functions *)
Lemma before_eq y m : 31 * frommonth m - (if frommonth m >? 1 then (27 + 4 * frommonth m) / 10 - lp y else 0)
  = before y m.
Proof. destruct (lp_01 y) as [E|E]; destruct m; cbn [before]; rewrite ?E; reflexivity. Qed.

Definition givesZ (P : Prop) (m : outcome Z) (v : Z) : Prop :=
  (m = Ret v /\ in_int v) \/ ~ P /\ m = Raise Overflow.
Lemma step_Z {B} (P : Prop) m v (k : Z -> outcome B) w :
  givesZ P m v -> (in_int v -> gives P (k v) w) -> gives P (do a <- m; k a) w.
Proof. intros [[-> R]|[N ->]] H; [now apply H|]. right. now split. Qed.
Lemma stepZ {B} (P : Prop) (m : outcome B) v (k : B -> outcome Z) w :
  gives P m v -> givesZ P (k v) w -> givesZ P (do a <- m; k a) w.
Proof. intros [->|[N ->]] H; [exact H|]. right. now split. Qed.
Lemma stepZZ (P : Prop) m v (k : Z -> outcome Z) w :
  givesZ P m v -> (in_int v -> givesZ P (k v) w) -> givesZ P (do a <- m; k a) w.
Proof. intros [[-> R]|[N ->]] H; [now apply H|]. right. now split. Qed.
Lemma givesZ_gives P m v : givesZ P m v -> gives P m v.
Proof. intros [[-> R]|[N ->]]; [now left|]. right. now split. Qed.
Lemma givesZ_add (P : Prop) x y : in_int x -> in_int y -> (P -> in_int (x + y)) -> givesZ P (iadd x y) (x + y).
Proof.
  intros Hx Hy HP. rewrite iadd_eq by assumption.
  destruct (in_intb (x + y)) eqn:E; [left; split; [reflexivity|now apply in_intb_spec]|].
  right. split; [|reflexivity]. intros p. apply HP, in_intb_yes in p. congruence.
Qed.
Lemma givesZ_sub (P : Prop) x y : in_int x -> in_int y -> (P -> in_int (x - y)) -> givesZ P (isub x y) (x - y).
Proof.
  intros Hx Hy HP. rewrite isub_eq by assumption.
  destruct (in_intb (x - y)) eqn:E; [left; split; [reflexivity|now apply in_intb_spec]|].
  right. split; [|reflexivity]. intros p. apply HP, in_intb_yes in p. congruence.
Qed.
Lemma givesZ_mul (P : Prop) x y : in_int x -> in_int y -> (-1000 <= x <= 1000 \/ -1000 <= y <= 1000) ->
  (P -> in_int (x * y)) -> givesZ P (imul x y) (x * y).
Proof.
  intros Hx Hy Hs HP. unfold imul. rewrite !Val_long_int, mul_spec by (assumption || lia).
  rewrite unbox_if.
  destruct (in_intb (x * y)) eqn:E; [left; split; [reflexivity|now apply in_intb_spec]|].
  right. split; [|reflexivity]. intros p. apply HP, in_intb_yes in p. congruence.
Qed.
Ltac stz L := eapply stepZZ; [apply L; range|cbv beta; intros].

Lemma dayinyear_gives (P : Prop) y m d : in_int d -> (P -> - big * 1000 <= d <= big * 1000) ->
  givesZ P (dayinyear y m d) (diy y m d).
Proof.
  intros Hd HP. unfold dayinyear. cbn zeta.
  assert (0 <= frommonth m <= 11) as Hm by (destruct m; cbn [frommonth]; lia).
  stz givesZ_sub. stz givesZ_mul. stz givesZ_add.
  fold (lp y). pose proof (lp_01 y) as L.
  eapply stepZZ with (v := if frommonth m >? 1 then (27 + 4 * frommonth m) / 10 - lp y else 0).
  - destruct (frommonth m >? 1); [|left; split; [reflexivity|range]].
    stz givesZ_mul. stz givesZ_add. apply givesZ_sub; range.
  - intros I. unfold diy. rewrite <- before_eq.
    set (e := if frommonth m >? 1 then (27 + 4 * frommonth m) / 10 - lp y else 0) in *.
    assert (0 <= e <= 7) as He by (unfold e; destruct (frommonth m >? 1) eqn:E; lia).
    replace (d - 1 + (31 * frommonth m - e)) with (d - 1 + 31 * frommonth m - e) by lia.
    apply givesZ_sub; range.
Qed.

Lemma todaynumber_gives (P : Prop) y m d : in_int y -> in_int d ->
  (P -> - big <= y <= big /\ - big * 2 <= d <= big * 2) ->
  givesZ P (todaynumber y m d) (tdn y m d).
Proof.
  intros Hy Hd HP. unfold todaynumber.
  assert (P -> - big * 3 <= diy y m d <= big * 3) as HP'.
  { intros p. apply HP in p. pose proof (lp_01 y).
    assert (0 <= before y m <= 335) by (destruct m; cbn [before]; lia). unfold diy. range. }
  stz givesZ_sub.
  eapply stepZZ; [apply dayinyear_gives; [assumption|range]|]. cbv beta. intros.
  stz givesZ_add. stz givesZ_mul. stz givesZ_add. stz givesZ_add. stz givesZ_sub.
  replace (tdn y m d) with (diy y m d + 1 + 365 * (y - 1) + (y - 1) / 4 - (y - 1) / 100 + (y - 1) / 400)
    by (unfold tdn, ystart; lia).
  apply givesZ_add; range.
Qed.

(** *** Date.date *)
Definition small (x : Z) : Prop := - big <= x <= big.
Definition secs_of (d h mi s : Z) : Z := 86400 * d + 3600 * h + 60 * mi + s.

Record good (dt : date_t) (n : Z) (t : Z) : Prop := Good {
  g_valid : valid_day (year dt, mon dt, day dt);
  g_num : num (year dt, mon dt, day dt) = n;
  g_hour : 0 <= hour dt < 24;
  g_min : 0 <= minute dt < 60;
  g_sec : 0 <= second dt < 60;
  g_time : 86400 * n + 3600 * hour dt + 60 * minute dt + second dt = t;
  g_wday : wday dt = wd n;
  g_yday : yday dt = diy (year dt) (mon dt) (day dt) }.

Section Clib.
Variable via_clock : tmoz -> outcome tmoz.

(** what normalizedate returns, given the date it computes before the C library is asked *)
Definition after_clock (off : option Z) (dt : date_t) : outcome date_t :=
  if (year dt <? 1970) || (year dt >? 2037) then Ret dt
  else match off with
       | None => do t <- dateToTmoz dt; do t' <- via_clock t; tmozToDate t' off
       | Some _ => Ret dt
       end.

Lemma normalizedate_core (P : Prop) y m d h mi s off :
  in_int y -> in_int d -> in_int h -> in_int mi -> in_int s ->
  (P -> small y /\ - big * 2 <= d <= big * 2 /\ small h /\ small mi /\ small s) ->
  (exists dt, good dt (num (year dt, mon dt, day dt)) (86400 * tdn y m d + 3600 * h + 60 * mi + s) /\
    offset dt = off /\ isDst dt = match off with None => None | Some _ => Some false end /\
    normalizedate via_clock y m d h mi s off = after_clock off dt) \/
  (~ P /\ normalizedate via_clock y m d h mi s off = Raise Overflow).
Proof.
  intros Hy Hd Hh Hmi Hs HP. unfold small in HP.
  assert (P -> - big * 400 <= tdn y m d <= big * 400) as HT.
  { intros p. apply HP in p. unfold tdn, diy, ystart. pose proof (lp_01 y).
    assert (0 <= before y m <= 335) by (destruct m; cbn [before]; lia). unfold big in *. lia. }
  unfold normalizedate.
  destruct (givesZ_add P mi (s / 60)) as [[-> R1]|[N ->]]; [range|range|range| |right; now split].
  cbn [bind]. set (mn1 := mi + s / 60) in *.
  assert (P -> - big * 2 <= mn1 <= big * 2) as HP1 by (intros p; apply HP in p; unfold mn1, big in *; lia).
  destruct (givesZ_add P h (mn1 / 60)) as [[-> R2]|[N ->]]; [range|range|range| |right; now split].
  cbn [bind]. set (hr1 := h + mn1 / 60) in *.
  assert (P -> - big * 3 <= hr1 <= big * 3) as HP2 by (intros p; apply HP1 in p as p'; apply HP in p; unfold hr1, big in *; lia).
  destruct (todaynumber_gives P y m d) as [[-> R3]|[N ->]]; [assumption|assumption|range| |right; now split].
  cbn [bind].
  destruct (givesZ_add P (tdn y m d) (hr1 / 24)) as [[-> R4]|[N ->]]; [range|range|range| |right; now split].
  cbn [bind]. set (dayno := tdn y m d + hr1 / 24) in *.
  assert (P -> - big * 500 <= dayno <= big * 500) as HP3 by (intros p; apply HP2 in p as p'; apply HT in p; unfold dayno, big in *; lia).
  destruct (fromdaynumber_ok P dayno) as (y' & m' & d' & G & V & N); [assumption|range|].
  destruct G as [-> | [NP ->]]; [|right; now split]. cbn [bind].
  rewrite weekday_of_eq. cbn [bind].
  assert (in_int d') as Hd'. { apply valid_iff in V. pose proof (mlen_range y' m'). range. }
  destruct (dayinyear_gives P y' m' d') as [[-> R5]|[NP ->]];
    [assumption|apply valid_iff in V; pose proof (mlen_range y' m'); range| |right; now split].
  cbn [bind]. left.
  exists (DATE y' m' d' (hr1 mod 24) (mn1 mod 60) (s mod 60) (wd dayno) (diy y' m' d')
           (match off with None => None | Some _ => Some false end) off).
  split; [|split; [reflexivity|split; reflexivity]].
  constructor; cbn [year mon day hour minute second wday yday].
  - assumption.
  - reflexivity.
  - lia.
  - lia.
  - lia.
  - cbn [num]. rewrite N. unfold dayno, hr1, mn1. lia.
  - cbn [num]. now rewrite N.
  - reflexivity.
Qed.
End Clib.
