(** C36: Date arithmetic is the Gregorian calendar.
    The calendar is specified in Date_Spec.v: [valid_day], [day_after], [numbered] (counting days
    from 1 January of year 1), [falls_on] (counting weekdays from 1 January 2000) and [moment]. *)
From Verif Require Import Base Arith_Model Arith_Proofs Scan_Model Scan_Proofs Date_Model Date_Spec
  Date_Proofs Date_Proofs2.

(** an argument that is safely away from Overflow: at most 2^50 in absolute value *)
Definition moderate (x : Z) : Prop := - 2 ^ 50 <= x <= 2 ^ 50.

(** A canonical date value: an existing day, a time of day, and the right day of the week and
    number of days since 1 January of the same year. *)
Definition canonical (dt : date_t) : Prop :=
  valid_day (year dt, mon dt, day dt) /\
  0 <= hour dt <= 23 /\ 0 <= minute dt <= 59 /\ 0 <= second dt <= 59 /\
  falls_on (year dt, mon dt, day dt) (wday dt) /\
  (exists a b, numbered (year dt, Jan, 1) a /\ numbered (year dt, mon dt, day dt) b /\
    yday dt = b - a).
Definition names (dt : date_t) (t : Z) : Prop :=
  moment (year dt) (mon dt) (day dt) (hour dt) (minute dt) (second dt) t.

Lemma moderate_small x : moderate x <-> small x.
Proof. reflexivity. Qed.

Lemma moment_iff y m d h mi s t :
  moment y m d h mi s t <-> t = 86400 * tdn y m d + 3600 * h + 60 * mi + s.
Proof.
  unfold moment. split.
  - intros (n & [_ N]%numbered_iff & ->). cbn [num] in N. subst n.
    pose proof (tdn_linear y m 1 (d - 1)) as E. replace (1 + (d - 1)) with d in E by lia. lia.
  - intros ->. exists (tdn y m 1). split.
    + apply numbered_iff. split; [|reflexivity]. apply valid_iff. pose proof (mlen_range y m). lia.
    + pose proof (tdn_linear y m 1 (d - 1)) as E. replace (1 + (d - 1)) with d in E by lia. lia.
Qed.

Lemma good_canonical dt t : good dt (num (year dt, mon dt, day dt)) t -> canonical dt /\ names dt t.
Proof.
  intros []. cbn [num] in *. split.
  - split; [assumption|]. split; [lia|]. split; [lia|]. split; [lia|]. split.
    + apply falls_iff. split; [assumption|]. now rewrite g_wday.
    + exists (tdn (year dt) Jan 1), (tdn (year dt) (mon dt) (day dt)). repeat split.
      * apply numbered_iff. split; [|reflexivity]. apply valid_iff. cbn [mlen]. lia.
      * apply numbered_iff. now split.
      * rewrite g_yday. unfold tdn, diy. cbn [before]. lia.
  - unfold names. apply moment_iff. lia.
Qed.

(** *** The day numbering *)

(** Every integer numbers exactly one valid day, and every valid day has exactly one number. *)
Theorem C36_numbering_bijective :
  (forall n, exists x, numbered x n /\ valid_day x /\ forall x', numbered x' n -> x' = x) /\
  (forall x, valid_day x -> exists n, numbered x n /\ forall n', numbered x n' -> n' = n).
Proof.
  split.
  - intros n. destruct (numbered_all n) as [x H]. exists x. split; [assumption|].
    apply numbered_iff in H as [V N]. split; [assumption|].
    intros x' [V' N']%numbered_iff. apply num_inj; congruence.
  - intros x V. exists (num x). split; [now apply numbered_iff|].
    now intros n' [_ <-]%numbered_iff.
Qed.

(** todaynumber counts the days; it raises nothing but Overflow, and only for huge years. *)
Theorem C36_todaynumber : forall y m d, in_int y -> valid_day (y, m, d) ->
  (exists n, todaynumber y m d = Ret n /\ numbered (y, m, d) n) \/
  (todaynumber y m d = Raise Overflow /\ ~ moderate y).
Proof.
  intros y m d Hy V. apply valid_iff in V as V'. pose proof (mlen_range y m) as R.
  destruct (todaynumber_gives (moderate y) y m d) as [[E I]|[N E]].
  - assumption.
  - range.
  - unfold moderate. change (2 ^ 50) with big. range.
  - left. exists (tdn y m d). split; [assumption|]. now apply numbered_iff.
  - right. now split.
Qed.

(** fromdaynumber inverts it, for negative numbers too. *)
Theorem C36_fromdaynumber : forall n, in_int n ->
  (exists x, fromdaynumber n = Ret x /\ valid_day x /\ numbered x n) \/
  (fromdaynumber n = Raise Overflow /\ ~ moderate n).
Proof.
  intros n Hn.
  destruct (fromdaynumber_ok (moderate n) n) as (y & m & d & G & V & N).
  - assumption.
  - unfold moderate. change (2 ^ 50) with big. range.
  - destruct G as [E|[NM E]].
    + left. exists (y, m, d). split; [assumption|]. split; [assumption|]. now apply numbered_iff.
    + right. now split.
Qed.

(** *** Date.date *)
Section C.
Variable via_clock : tmoz -> outcome tmoz.
Notation date := (Date_Model.date via_clock).

Theorem C36_negative_year : forall y m d h mi s off, y < 0 -> date y m d h mi s off = Raise DateExn.
Proof. intros. unfold Date_Model.date. now rewrite (proj2 (Z.ltb_lt _ _)) by assumption. Qed.

(** With an offset below 24 hours Date.date returns the canonical date of the very moment its
    arguments name, however far out of range they are, with the given offset; it raises Overflow
    only for huge arguments. *)
Theorem C36_date_with_offset : forall y m d h mi s secs,
  0 <= y -> in_int y -> in_int d -> in_int h -> in_int mi -> in_int s -> 0 <= secs < 86400 ->
  (exists dt t, date y m d h mi s (Some secs) = Ret dt /\ canonical dt /\
     moment y m d h mi s t /\ names dt t /\
     isDst dt = Some false /\ offset_of dt = Ret (Some secs)) \/
  (date y m d h mi s (Some secs) = Raise Overflow /\
   ~ (moderate y /\ moderate d /\ moderate h /\ moderate mi /\ moderate s)).
Proof.
  intros y m d h mi s secs Hy0 Hy Hd Hh Hmi Hs Hsecs.
  set (P := moderate y /\ moderate d /\ moderate h /\ moderate mi /\ moderate s).
  unfold Date_Model.date. rewrite (proj2 (Z.ltb_ge _ _)) by assumption.
  unfold iquot. rewrite Z.quot_small by lia.
  assert (exists e, (if secs <=? 43200 then ineg secs else isub 86400 secs) = Ret e /\ in_int e /\
            (86400 - e) mod 86400 = secs /\ in_int (86400 - e)) as (e & -> & He & Me & He').
  { destruct (Z.leb_spec secs 43200).
    - exists (- secs). split; [|split; [range|split; [lia|range]]].
      unfold ineg. rewrite Val_long_int, neg_spec by range.
      rewrite unbox_if. now rewrite in_intb_yes by range.
    - exists (86400 - secs). split; [|split; [range|split; [lia|range]]].
      rewrite isub_eq by range. now rewrite in_intb_yes by range. }
  cbn [bind]. rewrite iadd_eq by (assumption || range). rewrite Z.add_0_r, in_intb_yes by assumption.
  cbn [bind].
  destruct (normalizedate_core via_clock P y m d h mi s (Some e)) as [(dt & G & O & D & E)|[N E]];
    try assumption.
  - unfold P, small, moderate. change (2 ^ 50) with big. range.
  - left. apply good_canonical in G as [G1 G2]. exists dt, (86400 * tdn y m d + 3600 * h + 60 * mi + s).
    split; [|split; [assumption|split; [now apply moment_iff|split; [assumption|split; [assumption|]]]]].
    + rewrite E. unfold after_clock. now destruct ((year dt <? 1970) || (year dt >? 2037)).
    + unfold offset_of. rewrite O. rewrite isub_eq by (assumption || range).
      rewrite in_intb_yes by assumption. cbn [bind]. now rewrite Me.
  - right. now split.
Qed.

(** Without an offset, for a year outside 1970-2037, the same. *)
Theorem C36_date_local : forall y m d h mi s,
  0 <= y -> in_int y -> in_int d -> in_int h -> in_int mi -> in_int s ->
  (exists dt t, canonical dt /\ moment y m d h mi s t /\ names dt t /\ isDst dt = None /\ offset dt = None /\
     (year dt < 1970 \/ year dt > 2037 -> date y m d h mi s None = Ret dt) /\
     (* from 1970 to 2037 the C library is asked; if it confirms the fields, they are kept and only
        the daylight savings time indication is taken from it *)
     (forall dst, 1970 <= year dt <= 2037 ->
        via_clock (TM (hour dt) (-1) (day dt) (minute dt) (frommonth (mon dt)) (second dt)
                      (fromwday (wday dt)) (yday dt) (year dt - 1900))
        = Ret (TM (hour dt) dst (day dt) (minute dt) (frommonth (mon dt)) (second dt)
                      (fromwday (wday dt)) (yday dt) (year dt - 1900)) ->
        exists dst', date y m d h mi s None
          = Ret (DATE (year dt) (mon dt) (day dt) (hour dt) (minute dt) (second dt) (wday dt) (yday dt)
                   dst' None))) \/
  (date y m d h mi s None = Raise Overflow /\
   ~ (moderate y /\ moderate d /\ moderate h /\ moderate mi /\ moderate s)).
Proof.
  intros y m d h mi s Hy0 Hy Hd Hh Hmi Hs.
  set (P := moderate y /\ moderate d /\ moderate h /\ moderate mi /\ moderate s).
  unfold Date_Model.date. rewrite (proj2 (Z.ltb_ge _ _)) by assumption. cbn [bind].
  rewrite iadd_eq by (assumption || range). rewrite Z.add_0_r, in_intb_yes by assumption. cbn [bind].
  destruct (normalizedate_core via_clock P y m d h mi s None) as [(dt & G & O & D & E)|[N E]];
    try assumption.
  - unfold P, small, moderate. change (2 ^ 50) with big. range.
  - left. pose proof (good_canonical _ _ G) as [G1 G2]. exists dt, (86400 * tdn y m d + 3600 * h + 60 * mi + s).
    split; [assumption|]. split; [now apply moment_iff|]. split; [assumption|]. split; [assumption|].
    split; [assumption|]. rewrite E. unfold after_clock. split.
    + intros Y. destruct (Z.ltb_spec (year dt) 1970); [reflexivity|].
      destruct (year dt >? 2037) eqn:F; [reflexivity|lia].
    + intros dst Y C. rewrite (proj2 (Z.ltb_ge _ _)) by lia.
      replace (year dt >? 2037) with false by lia. cbn [orb].
      unfold dateToTmoz, okDate. rewrite (proj2 (Z.leb_le 1900 _)) by lia. cbn [negb].
      destruct G. apply valid_iff in g_valid. rewrite (proj2 (Z.leb_le 1 _)) by lia. cbn [negb].
      rewrite monthdays_eq. cbn [bind].
      rewrite !(proj2 (Z.leb_le _ _)) by lia. cbn [andb].
      rewrite isub_eq by range. rewrite in_intb_yes by range. cbn [bind]. rewrite D, C. cbn [bind].
      unfold tmozToDate. cbn [tm_year tm_mon tm_wday tm_mday tm_hour tm_min tm_sec tm_yday tm_isdst].
      rewrite iadd_eq by range. rewrite in_intb_yes by range. cbn [bind].
      rewrite tomonth_of. cbn [bind].
      assert (toweekday (fromwday (wday dt)) = Ret (wday dt)) as -> by now destruct (wday dt).
      cbn [bind]. replace (year dt - 1900 + 1900) with (year dt) by lia. eexists. reflexivity.
  - right. now split.
Qed.
End C.

(** *** Date.compare orders canonical dates as their moments *)
Theorem C36_compare : forall a b t u, canonical a -> canonical b -> names a t -> names b u ->
  compare a b = (t ?= u).
Proof.
  intros a b t u (Va & Ha & Ma & Sa & _) (Vb & Hb & Mb & Sb & _) Ta Tb.
  unfold names in *. apply moment_iff in Ta, Tb.
  change (tdn (year a) (mon a) (day a)) with (num (year a, mon a, day a)) in Ta.
  change (tdn (year b) (mon b) (day b)) with (num (year b, mon b, day b)) in Tb.
  assert (C : forall v w n, cmp v w n = match v ?= w with Eq => n | c => c end).
  { intros v w n. unfold cmp, Z.ltb, Z.gtb. now destruct (v ?= w). }
  pose proof (num_mono _ _ Va Vb) as M1. pose proof (num_mono _ _ Vb Va) as M2.
  unfold lex_lt in M1, M2. unfold compare. rewrite !C.
  destruct (Z.compare_spec (year a) (year b)) as [E1|L|L].
  2:{ symmetry. apply Z.compare_lt_iff. lia. }
  2:{ symmetry. apply Z.compare_gt_iff. lia. }
  destruct (Z.compare_spec (frommonth (mon a)) (frommonth (mon b))) as [E2%frommonth_inj|L|L].
  2:{ symmetry. apply Z.compare_lt_iff. lia. }
  2:{ symmetry. apply Z.compare_gt_iff. lia. }
  destruct (Z.compare_spec (day a) (day b)) as [E3|L|L].
  2:{ symmetry. apply Z.compare_lt_iff. assert (num (year a, mon a, day a) < num (year b, mon b, day b)) by (apply M1; right; split; [assumption|right; now split]). lia. }
  2:{ symmetry. apply Z.compare_gt_iff. assert (num (year b, mon b, day b) < num (year a, mon a, day a)) by (apply M2; right; split; [lia|right; split; [congruence|lia]]). lia. }
  rewrite E1, E2, E3 in Ta.
  destruct (Z.compare_spec (hour a) (hour b)) as [E4|L|L].
  2:{ symmetry. apply Z.compare_lt_iff. lia. }
  2:{ symmetry. apply Z.compare_gt_iff. lia. }
  destruct (Z.compare_spec (minute a) (minute b)) as [E5|L|L].
  2:{ symmetry. apply Z.compare_lt_iff. lia. }
  2:{ symmetry. apply Z.compare_gt_iff. lia. }
  destruct (Z.compare_spec (second a) (second b)) as [E6|L|L].
  - symmetry. apply Z.compare_eq_iff. lia.
  - symmetry. apply Z.compare_lt_iff. lia.
  - symmetry. apply Z.compare_gt_iff. lia.
Qed.

(** *** Date.toTime on a machine whose time zone has no daylight savings time.
    Such a machine's [mktime] turns calendar fields into the seconds since 1970-01-01 00:00 of the
    same calendar, plus the distance of its own zone to UTC. *)
Definition fixed_zone (mktime : tmoz -> outcome Z) (localoffset : Z) : Prop :=
  forall y m d h mi s dst wd yd t e,
    moment y m d h mi s t -> moment 1970 Jan 1 0 0 0 e ->
    mktime (TM h dst d mi (frommonth m) s wd yd (y - 1900)) = Ret (t - e + localoffset).

(** the offset of a zone from UTC, in seconds to add to its time to get UTC, as documented in
    Date.sig 53-56 and 67-68: west of UTC for 0 <= t < 12 hours, east from 12 hours on; days in
    excess of a day are counted as days *)
Definition documented_offset (secs : Z) : Z :=
  let r := secs mod 86400 in
  secs - r + (if r <? 43200 then r else r - 86400).

Lemma toTime_core mktime lo dt t e off : fixed_zone mktime lo -> canonical dt -> names dt t ->
  1900 <= year dt -> in_int (year dt) -> moment 1970 Jan 1 0 0 0 e -> offset dt = Some off -> 0 <= t - e - off ->
  toTime mktime lo dt = Ret (t - e - off).
Proof.
  intros F (V & Rh & Rm & Rs & _) N Y Iy E O Pos. unfold toTime. rewrite O. unfold dateToTmoz, okDate.
  rewrite (proj2 (Z.leb_le 1900 _)) by lia. cbn [negb]. apply valid_iff in V.
  rewrite (proj2 (Z.leb_le 1 _)) by lia. cbn [negb]. rewrite monthdays_eq. cbn [bind].
  rewrite !(proj2 (Z.leb_le _ _)) by lia. cbn [andb].
  rewrite isub_eq by range. rewrite in_intb_yes by range. cbn [bind].
  rewrite (F _ _ _ _ _ _ _ _ _ _ _ N E). cbn [bind].
  replace (t - e + lo - (lo + off)) with (t - e - off) by lia.
  now rewrite (proj2 (Z.ltb_ge _ _)) by lia.
Qed.

(** Full statement: for every offset [secs] >= 0, toTime of the date is the UTC moment
      t - e + documented_offset secs
    where [t] is the moment named by the fields.  It holds for offsets below a day other than
    exactly 12 hours. *)
Theorem C36_toTime_partial : forall via_clock mktime lo y m d h mi s secs dt t e,
  fixed_zone mktime lo ->
  0 <= y -> in_int y -> in_int d -> in_int h -> in_int mi -> in_int s ->
  0 <= secs < 86400 -> secs <> 43200 ->
  Date_Model.date via_clock y m d h mi s (Some secs) = Ret dt -> 1900 <= year dt -> in_int (year dt) ->
  moment y m d h mi s t -> moment 1970 Jan 1 0 0 0 e -> 0 <= t - e + documented_offset secs ->
  toTime mktime lo dt = Ret (t - e + documented_offset secs).
Proof.
  intros via_clock mktime lo y m d h mi s secs dt t e F Hy0 Hy Hd Hh Hmi Hs Hsecs H12 E Y Iy T Ep Pos.
  revert E. unfold Date_Model.date. rewrite (proj2 (Z.ltb_ge _ _)) by assumption.
  unfold iquot. rewrite Z.quot_small by lia.
  assert ((if secs <=? 43200 then ineg secs else isub 86400 secs) = Ret (- documented_offset secs)) as ->.
  { unfold documented_offset. rewrite Z.mod_small by lia.
    destruct (Z.leb_spec secs 43200).
    - rewrite (proj2 (Z.ltb_lt _ _)) by lia. replace (- (secs - secs + secs)) with (- secs) by lia.
      unfold ineg. rewrite Val_long_int, neg_spec by range.
      rewrite unbox_if. now rewrite in_intb_yes by range.
    - rewrite (proj2 (Z.ltb_ge _ _)) by lia. replace (- (secs - secs + (secs - 86400))) with (86400 - secs) by lia.
      rewrite isub_eq by range. now rewrite in_intb_yes by range. }
  cbn [bind]. rewrite iadd_eq by (assumption || range). rewrite Z.add_0_r, in_intb_yes by assumption.
  cbn [bind]. intros E.
  destruct (normalizedate_core via_clock False y m d h mi s (Some (- documented_offset secs)))
    as [(dt' & G & O & D & E')|[N E']]; try assumption; try tauto; [|congruence].
  assert (dt' = dt) as ->.
  { rewrite E' in E. unfold after_clock in E. destruct ((year dt' <? 1970) || (year dt' >? 2037)); congruence. }
  apply good_canonical in G as [G1 G2].
  apply moment_iff in T. rewrite <- T in G2.
  rewrite (toTime_core mktime lo dt t e (- documented_offset secs)); try assumption; try lia.
  f_equal. lia.
Qed.

(** a fixed zone exists: UTC itself *)
Definition utc_mktime (tm : tmoz) : outcome Z :=
  do m <- tomonth (tm_mon tm);
  Ret (86400 * tdn (tm_year tm + 1900) m (tm_mday tm) + 3600 * tm_hour tm + 60 * tm_min tm + tm_sec tm
       - 86400 * tdn 1970 Jan 1).
Lemma utc_fixed : fixed_zone utc_mktime 0.
Proof.
  intros y m d h mi s dst wd yd t e T%moment_iff E%moment_iff. subst.
  unfold utc_mktime. cbn [tm_year tm_mon tm_mday tm_hour tm_min tm_sec]. rewrite tomonth_of. cbn [bind].
  replace (y - 1900 + 1900) with y by lia. f_equal. lia.
Qed.

(** An offset of exactly 12 hours is taken as west of UTC although documented as east: toTime is a
    day late. *)
Theorem C36_offset_12h_refuted : exists mktime lo dt t e,
  fixed_zone mktime lo /\
  Date_Model.date Ret 2000 Jan 15 0 0 0 (Some 43200) = Ret dt /\
  moment 2000 Jan 15 0 0 0 t /\ moment 1970 Jan 1 0 0 0 e /\
  toTime mktime lo dt = Ret (t - e + documented_offset 43200 + 86400).
Proof.
  exists utc_mktime, 0. eexists.
  exists (86400 * tdn 2000 Jan 15), (86400 * tdn 1970 Jan 1).
  split; [apply utc_fixed|]. split; [vm_compute; reflexivity|].
  split; [apply moment_iff; lia|]. split; [apply moment_iff; lia|]. vm_compute. reflexivity.
Qed.

(** An offset of two days or more is not reduced modulo 24 hours: after the two days have been added
    to the date, the offset kept is 25 hours, and toTime is a day late. *)
Theorem C36_offset_excess_refuted : exists mktime lo dt t e,
  fixed_zone mktime lo /\
  Date_Model.date Ret 2000 Jan 15 0 0 0 (Some (2 * 86400 + 3600)) = Ret dt /\
  moment 2000 Jan 15 0 0 0 t /\ moment 1970 Jan 1 0 0 0 e /\
  toTime mktime lo dt = Ret (t - e + documented_offset (2 * 86400 + 3600) + 86400).
Proof.
  exists utc_mktime, 0. eexists.
  exists (86400 * tdn 2000 Jan 15), (86400 * tdn 1970 Jan 1).
  split; [apply utc_fixed|]. split; [vm_compute; reflexivity|].
  split; [apply moment_iff; lia|]. split; [apply moment_iff; lia|]. vm_compute. reflexivity.
Qed.

(** *** Examples *)
Example date_example :
  exists dt, Date_Model.date Ret 1999 Dec 60 25 61 3661 (Some 3600) = Ret dt /\
    (year dt, mon dt, day dt) = (2000, Jan, 30) /\ (hour dt, minute dt, second dt) = (3, 2, 1) /\
    wday dt = Sun /\ yday dt = 29 /\ offset dt = Some (-3600).
Proof. eexists. split; [vm_compute; reflexivity|]. repeat split. Qed.
Example leap_century : fromdaynumber 730179 = Ret (2000, Feb, 29) /\ todaynumber 2000 Feb 29 = Ret 730179
  /\ fromdaynumber (-365) = Ret (0, Jan, 1) /\ fromdaynumber 0 = Ret (0, Dec, 31).
Proof. repeat split. Qed.
Example compare_example : exists a b, Date_Model.date Ret 1999 Dec 31 23 59 59 None = Ret a /\
  Date_Model.date Ret 2000 Jan 1 0 0 0 None = Ret b /\ compare a b = Lt.
Proof. eexists. eexists. split; [vm_compute; reflexivity|]. split; [vm_compute; reflexivity|reflexivity]. Qed.
Example toTime_example : exists dt, Date_Model.date Ret 2000 Jan 15 0 0 0 (Some 3600) = Ret dt /\
  toTime utc_mktime 0 dt = Ret (947894400 + 3600).
Proof. eexists. split; [vm_compute; reflexivity|vm_compute; reflexivity]. Qed.

Print Assumptions C36_numbering_bijective.
Print Assumptions C36_todaynumber.
Print Assumptions C36_fromdaynumber.
Print Assumptions C36_negative_year.
Print Assumptions C36_date_with_offset.
Print Assumptions C36_date_local.
Print Assumptions C36_compare.
Print Assumptions C36_toTime_partial.
Print Assumptions C36_offset_12h_refuted.
Print Assumptions C36_offset_excess_refuted.
