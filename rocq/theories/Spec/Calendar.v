(** Independent vocabulary about dates: counting days and seconds. *)
From Verif Require Import Base Spec.Json Model.Export.

(** The Gregorian rule. *)
Definition leap_year (y : N) : Prop :=
  N.divide 4 y /\ (N.divide 100 y -> N.divide 400 y).

Definition common_months : list N := [31; 28; 31; 30; 31; 30; 31; 31; 30; 31; 30; 31]%N.

(** [month_has y m n]: month [m] (1 to 12) of year [y] has [n] days. *)
Definition month_has (y m n : N) : Prop :=
  (1 <= m <= 12)%N /\
  ((m = 2%N /\ leap_year y /\ n = 29%N) \/
   (~ (m = 2%N /\ leap_year y) /\ nth_error common_months (N.to_nat (m - 1)) = Some n)).

(** [before_month y m n]: the months of year [y] before month [m] have [n] days
    altogether; [before_year y n]: so have the years from 1970 until [y]. *)
Inductive before_month (y : N) : N -> N -> Prop :=
| months_none : before_month y 1 0
| months_more m n k : before_month y m n -> month_has y m k -> before_month y (m + 1) (n + k).
Inductive before_year : N -> N -> Prop :=
| years_none : before_year 1970 0
| years_more y n k : before_year y n -> before_month y 13 k -> before_year (y + 1) (n + k).

(** [denotes u t]: [u] is a date and time of day of the UTC calendar, and it is
    [t] seconds after the start of 1970 (leap seconds are not counted). *)
Definition denotes (u : utc) (t : N) : Prop :=
  exists yd md len, before_year (tm_year u) yd /\ before_month (tm_year u) (tm_mon u) md /\
    month_has (tm_year u) (tm_mon u) len /\ (1 <= tm_day u <= len)%N /\
    (tm_hour u < 24)%N /\ (tm_min u < 60)%N /\ (tm_sec u < 60)%N /\
    t = ((yd + md + (tm_day u - 1)) * 86400 + tm_hour u * 3600 + tm_min u * 60 + tm_sec u)%N.

(** [a] comes before [b] in a listing sorted by the codes of the bytes. *)
Definition sorts_before (a b : bytes) : Prop :=
  (exists c r, b = a ++ c :: r) \/
  (exists p c d r s, a = p ++ c :: r /\ b = p ++ d :: s /\ (code c < code d)%N).
