(** Model of mosmllib/Date.sml: the calendar computations, Date.date, Date.compare, Date.offset and
    Date.toTime.
    Additions, subtractions and multiplications go through the machine opcodes (Overflow); [div] and
    [mod] by a positive constant are Z's floor division, which is what the opcodes compute (theorem
    C02_div_mod), and comparisons are Z's.
    Not modelled: fromTimeLocal, fromTimeUniv, toString, fmt (they only call the C library) and
    scan.  The C library functions used by Date.date for years 1970-2037 without an offset
    (getlocaltime_ after mktime_) and by toTime (mktime_) are parameters.  Reals are taken as exact
    integers, numbers of seconds. *)
From Verif Require Import Base Arith_Model Scan_Model.

(** Date.sml 3-7 *)
Inductive weekday := Mon | Tue | Wed | Thu | Fri | Sat | Sun.
Inductive month := Jan | Feb | Mar | Apr | May | Jun | Jul | Aug | Sep | Oct | Nov | Dec.

(** Date.sml 9-21 *)
Record date_t := DATE {
  year : Z; mon : month; day : Z; hour : Z; minute : Z; second : Z;
  wday : weekday; yday : Z; isDst : option bool; offset : option Z }.

(** Date.sml 29-38 *)
Record tmoz := TM {
  tm_hour : Z; tm_isdst : Z; tm_mday : Z; tm_min : Z; tm_mon : Z; tm_sec : Z;
  tm_wday : Z; tm_yday : Z; tm_year : Z }.

(** Date.sml 52-54 *)
Definition toweekday (n : Z) : outcome weekday :=
  match n with
  | 0 => Ret Sun | 1 => Ret Mon | 2 => Ret Tue | 3 => Ret Wed
  | 4 => Ret Thu | 5 => Ret Fri | 6 => Ret Sat | _ => Raise FailExn
  end.
(** Date.sml 55-56 *)
Definition fromwday (w : weekday) : Z :=
  match w with Sun => 0 | Mon => 1 | Tue => 2 | Wed => 3 | Thu => 4 | Fri => 5 | Sat => 6 end.
(** Date.sml 57-60 *)
Definition tomonth (n : Z) : outcome month :=
  match n with
  | 0 => Ret Jan | 1 => Ret Feb | 2 => Ret Mar | 3 => Ret Apr | 4 => Ret May | 5 => Ret Jun
  | 6 => Ret Jul | 7 => Ret Aug | 8 => Ret Sep | 9 => Ret Oct | 10 => Ret Nov | 11 => Ret Dec
  | _ => Raise FailExn
  end.
(** Date.sml 61-63 *)
Definition frommonth (m : month) : Z :=
  match m with
  | Jan => 0 | Feb => 1 | Mar => 2 | Apr => 3 | May => 4 | Jun => 5
  | Jul => 6 | Aug => 7 | Sep => 8 | Oct => 9 | Nov => 10 | Dec => 11
  end.

(** Date.sml 65-74 *)
Definition tmozToDate (t : tmoz) (off : option Z) : outcome date_t :=
  do y <- iadd (tm_year t) 1900;
  do m <- tomonth (tm_mon t);
  do w <- toweekday (tm_wday t);
  Ret (DATE y m (tm_mday t) (tm_hour t) (tm_min t) (tm_sec t) w (tm_yday t)
    (if tm_isdst t =? 0 then Some false else if tm_isdst t =? 1 then Some true else None) off).

(** Date.sml 76 *)
Definition leapyear (y : Z) : bool :=
  (y mod 4 =? 0) && negb (y mod 100 =? 0) || (y mod 400 =? 0).
(** Date.sml 78 *)
Definition monthlengths : list Z := [31; 28; 31; 30; 31; 30; 31; 31; 30; 31; 30; 31].
(** Date.sml 80-82; Vector.sub raises Subscript out of range *)
Definition monthdays (y : Z) (m : month) : outcome Z :=
  if (frommonth m =? 1) && leapyear y then Ret 29
  else match nth_error monthlengths (Z.to_nat (frommonth m)) with
       | Some n => Ret n
       | None => Raise Subscript
       end.

(** Date.sml 88-93 *)
Definition okDate (dt : date_t) : outcome bool :=
  if negb (1900 <=? year dt) then Ret false
  else if negb (1 <=? day dt) then Ret false
  else
    do md <- monthdays (year dt) (mon dt);
    Ret ((day dt <=? md) && (0 <=? hour dt) && (hour dt <=? 23)
         && (0 <=? minute dt) && (minute dt <=? 59) && (0 <=? second dt) && (second dt <=? 61)).

(** Date.sml 95-104 *)
Definition dateToTmoz (dt : date_t) : outcome tmoz :=
  do ok <- okDate dt;
  if ok : bool then
    do y <- isub (year dt) 1900;
    Ret (TM (hour dt)
           (match isDst dt with Some false => 0 | Some true => 1 | None => -1 end)
           (day dt) (minute dt) (frommonth (mon dt)) (second dt) (fromwday (wday dt)) (yday dt) y)
  else Raise DateExn.

(** Date.sml 111-118 *)
Definition dayinyear (y : Z) (m : month) (d : Z) : outcome Z :=
  let monthno := frommonth m in
  do a <- isub d 1;
  do b <- imul 31 monthno;
  do c <- iadd a b;
  do e <- (if monthno >? 1 then
             do f <- imul 4 monthno;
             do g <- iadd 27 f;
             isub (g / 10) (if leapyear y then 1 else 0)
           else Ret 0);
  isub c e.

(** Date.sml 123-132 *)
Definition todaynumber (y : Z) (m : month) (d : Z) : outcome Z :=
  do prioryears <- isub y 1;
  do a <- dayinyear y m d;
  do b <- iadd a 1;
  do c <- imul 365 prioryears;
  do e <- iadd b c;
  do f <- iadd e (prioryears / 4);
  do g <- isub f (prioryears / 100);
  iadd g (prioryears / 400).

(** Date.sml 147-152; the loop stops at the latest when tomonth raises Fail for month 12, so 13
    rounds of fuel are enough *)
Fixpoint monthloop (fuel : nat) (y : Z) (m d : Z) : outcome (Z * month * Z) :=
  match fuel with
  | O => Diverge
  | S fuel =>
    do mo <- tomonth m;
    do mdays <- monthdays y mo;
    if mdays <? d then
      do m' <- iadd m 1;
      do d' <- isub d mdays;
      monthloop fuel y m' d'
    else
      do mo <- tomonth m;
      Ret (y, mo, d)
  end.

(** Date.sml 136-158 *)
Definition fromdaynumber (n : Z) : outcome (Z * month * Z) :=
  do d0 <- isub n 1;
  let n400 := d0 / 146097 in
  let d1 := d0 mod 146097 in
  let n100 := d1 / 36524 in
  let d2 := d1 mod 36524 in
  let n4 := d2 / 1461 in
  let d3 := d2 mod 1461 in
  let n1 := d3 / 365 in
  do dd <- iadd 1 (d3 mod 365);
  do a <- imul 400 n400;
  do b <- imul 100 n100;
  do c <- iadd a b;
  do e <- imul n4 4;
  do f <- iadd c e;
  do g <- iadd f n1;
  do y <- iadd g 1;
  if (n100 =? 4) || (n1 =? 4) then
    do y' <- isub y 1;
    Ret (y', Dec, 31)
  else monthloop 13 y 0 dd.

(** Date.sml 162 *)
Definition weekday_of (daynumber : Z) : outcome weekday := toweekday (daynumber mod 7).

Section CLibrary.
(** getlocaltime_ (mktime_ tm): Date.sml 40, 42; mosml.c 1061-1118 *)
Variable via_clock : tmoz -> outcome tmoz.
(** mktime_: Date.sml 42, mosml.c 1104-1118, in seconds *)
Variable mktime : tmoz -> outcome Z.
(** localoffset: Date.sml 43-47, in seconds *)
Variable localoffset : Z.

(** Date.sml 166-201 *)
Definition normalizedate (yr0 : Z) (mo0 : month) (dy0 hr0 mn0 sec0 : Z) (off : option Z)
  : outcome date_t :=
  do mn1 <- iadd mn0 (sec0 / 60);
  let sec := sec0 mod 60 in
  do hr1 <- iadd hr0 (mn1 / 60);
  let min := mn1 mod 60 in
  do dn <- todaynumber yr0 mo0 dy0;
  do dayno <- iadd dn (hr1 / 24);
  let hr := hr1 mod 24 in
  do ymd <- fromdaynumber dayno;
  let '(y, m, d) := ymd in
  do w <- weekday_of dayno;
  do yd <- dayinyear y m d;
  let date1 := DATE y m d hr min sec w yd
    (match off with None => None | Some _ => Some false end) off in
  if (y <? 1970) || (y >? 2037) then Ret date1
  else match off with
       | None =>
         do t <- dateToTmoz date1;
         do t' <- via_clock t;
         tmozToDate t' off
       | Some _ => Ret date1
       end.

(** Int.quot by a positive constant: Int.mlp, opcode SMLQUOTINT, theorem C02_quot_rem *)
Definition iquot (x y : Z) : Z := Z.quot x y.

(** Date.sml 295-309; the offset argument is given in whole seconds, the value of Time.toSeconds *)
Definition date (y : Z) (m : month) (d h mi s : Z) (off : option Z) : outcome date_t :=
  if y <? 0 then Raise DateExn
  else
    do p <- match off with
            | None => Ret (0, None)
            | Some secs =>
              do secoffset <- (if secs <=? 43200 then ineg secs else isub 86400 secs);
              Ret (iquot secs 86400, Some secoffset)
            end;
    let '(dayoffset, off') := p in
    do d' <- iadd d dayoffset;
    normalizedate y m d' h mi s off'.

(** Date.sml 214-223, the resulting time in seconds since 1970-01-01 00:00 UTC *)
Definition toTime (dt : date_t) : outcome Z :=
  let secoffset := match offset dt with None => 0 | Some secs => localoffset + secs end in
  do t <- dateToTmoz dt;
  do c <- mktime t;
  let clock := c - secoffset in
  if clock <? 0 then Raise DateExn else Ret clock.
End CLibrary.

(** Date.sml 329-331, in seconds *)
Definition offset_of (dt : date_t) : outcome (option Z) :=
  match offset dt with
  | None => Ret None
  | Some secs => do a <- isub 86400 secs; Ret (Some (a mod 86400))
  end.

(** Date.sml 281-284 *)
Definition cmp (v1 v2 : Z) (next : comparison) : comparison :=
  if v1 <? v2 then Lt else if v1 >? v2 then Gt else next.
(** Date.sml 278-293 *)
Definition compare (a b : date_t) : comparison :=
  cmp (year a) (year b)
    (cmp (frommonth (mon a)) (frommonth (mon b))
      (cmp (day a) (day b)
        (cmp (hour a) (hour b)
          (cmp (minute a) (minute b)
            (cmp (second a) (second b) Eq))))).
