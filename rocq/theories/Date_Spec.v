(** The Gregorian calendar, independent of Date.sml's formulas: leap years, month lengths, the day
    after a day; numbering of the days by counting; days of the week by counting. *)
From Coq Require Import ZArith Bool.
From Verif Require Import Date_Model.
Open Scope Z_scope.

(** A year is a leap year if divisible by 4, except centuries not divisible by 400. *)
Definition leap (y : Z) : Prop := (4 | y) /\ (~ (100 | y) \/ (400 | y)).

(** number of days of a month, as a relation *)
Definition month_length (y : Z) (m : month) (n : Z) : Prop :=
  match m with
  | Apr | Jun | Sep | Nov => n = 30
  | Feb => (leap y /\ n = 29) \/ (~ leap y /\ n = 28)
  | _ => n = 31
  end.

(** A day is a year, a month and a day of the month. *)
Notation ymd := (Z * month * Z)%type.
Definition valid_day (x : ymd) : Prop :=
  let '(y, m, d) := x in exists n, month_length y m n /\ 1 <= d <= n.

(** the day after *)
Definition next_month (m : month) : month :=
  match m with
  | Jan => Feb | Feb => Mar | Mar => Apr | Apr => May | May => Jun | Jun => Jul
  | Jul => Aug | Aug => Sep | Sep => Oct | Oct => Nov | Nov => Dec | Dec => Jan
  end.
Definition day_after (x x' : ymd) : Prop :=
  let '(y, m, d) := x in
  exists n, month_length y m n /\
  (d < n /\ x' = (y, m, d + 1) \/
   d = n /\ m <> Dec /\ x' = (y, next_month m, 1) \/
   d = n /\ m = Dec /\ x' = (y + 1, Jan, 1)).

(** Numbering of the days: 1 January of year 1 is number 1, the others by counting up and down. *)
Inductive numbered : ymd -> Z -> Prop :=
| num_one : numbered (1, Jan, 1) 1
| num_next x x' n : numbered x n -> day_after x x' -> numbered x' (n + 1)
| num_prev x x' n : numbered x' n -> valid_day x -> day_after x x' -> numbered x (n - 1).

(** Days of the week: 1 January 2000 was a Saturday, the others by counting up and down. *)
Definition next_weekday (w : weekday) : weekday :=
  match w with
  | Mon => Tue | Tue => Wed | Wed => Thu | Thu => Fri | Fri => Sat | Sat => Sun | Sun => Mon
  end.
Inductive falls_on : ymd -> weekday -> Prop :=
| fo_2000 : falls_on (2000, Jan, 1) Sat
| fo_next x x' w : falls_on x w -> day_after x x' -> falls_on x' (next_weekday w)
| fo_prev x x' w : falls_on x' (next_weekday w) -> valid_day x -> day_after x x' -> falls_on x w.

(** The moment named by a year, a month and arbitrary (perhaps excessive or negative) days, hours,
    minutes, seconds: counted in seconds (without leap seconds) from the start of day 0; the
    [d]-th day of a month is d - 1 days after its first. *)
Definition moment (y : Z) (m : month) (d h mi s : Z) (t : Z) : Prop :=
  exists n, numbered (y, m, 1) n /\ t = 86400 * (n + (d - 1)) + 3600 * h + 60 * mi + s.
