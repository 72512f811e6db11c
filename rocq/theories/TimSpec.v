(** Specification of the calendar properties, independent of the arithmetic of TimModel. *)
From Coq Require Import Reals List ZArith Bool.
From Verif Require Import SeaModel TimModel.
Import ListNotations.
Open Scope Z_scope.

(** The Gregorian calendar *)
Definition leap (y : Z) : bool := ((y mod 4 =? 0) && negb (y mod 100 =? 0)) || (y mod 400 =? 0).
Definition month_length (y m : Z) : Z :=
  if m =? 2 then if leap y then 29 else 28 else if (m =? 4) || (m =? 6) || (m =? 9) || (m =? 11) then 30 else 31.
Definition valid (y m d : Z) : Prop := 1 <= m <= 12 /\ 1 <= d <= month_length y m.
(** The day after *)
Definition next_day (c : Z * Z * Z) : Z * Z * Z :=
  let '(y, m, d) := c in
  if d <? month_length y m then (y, m, d + 1) else if m <? 12 then (y, m + 1, 1) else (y + 1, 1, 1).
(** Days of the year before the first of the month *)
Fixpoint days_before (y : Z) (n : nat) : Z := match n with O => 0 | S k => days_before y k + month_length y (Z.of_nat n) end.

(** The local clock of a zone reads [local] at the instant [t] *)
Definition reads (z : zone) (t local : Z) : Prop := t + 1000 * offset_at z t = local.
(** [n] milliseconds are the time [t] in seconds, rounded down *)
Definition ms_of (t : R) (n : Z) : Prop := (IZR n <= 1000 * t < IZR n + 1)%R.
Definition in_range (t : R) : Prop := (- 2147483648 <= t < 2147483648)%R.
Definition tod (h m s : Z) : Z := 1000 * (3600 * h + 60 * m + s).
(** Steps of a simulation *)
Fixpoint ts_steps (s : timeserv) (l : list R) : res timeserv := match l with [] => Ok s | t :: r => s' <<- ts_update s t; ts_steps s' r end.
Fixpoint tz_steps (s : timezone) (l : list R) : res timezone := match l with [] => Ok s | t :: r => s' <<- tz_update s t; tz_steps s' r end.
