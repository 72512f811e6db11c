(** Model of the calendar of FRyDoM: environment/time/FrTimeServices.{h,cpp}, environment/time/FrTimeZone.{h,cpp} and
    FrEnvironment::GetYear (environment/FrEnvironment.cpp 122-126).  Paths are relative to /repo/src/frydom.
    Instants and durations are integers, in milliseconds since 1970-01-01; [double] is modelled by [R].
    The date library (H. Hinnant) is not in the repository; contracts written out below: sys_days / year_month_day are the
    published days_from_civil / civil_from_days; a time zone is its table of offsets; make_zoned of a local time throws
    when no or several instants have that local time.  Simplifications: years fit in date::year; overflow of the 64-bit
    millisecond count is not modelled; tm_isdst is not modelled.  [Undef]: floor(time) out of the range of int.
    No proofs in this file. *)
From Coq Require Import Reals List ZArith Bool.
From Verif Require Import SeaModel.
Import ListNotations.
Open Scope Z_scope.

(** ** date library: calendar (contract) *)
Definition days_from_civil (y m d : Z) : Z :=
  let y := if m <=? 2 then y - 1 else y in
  let era := y / 400 in
  let yoe := y - era * 400 in
  let doy := (153 * (if 2 <? m then m - 3 else m + 9) + 2) / 5 + d - 1 in
  let doe := yoe * 365 + yoe / 4 - yoe / 100 + doy in
  era * 146097 + doe - 719468.
Definition civil_from_days (z : Z) : Z * Z * Z :=
  let z := z + 719468 in
  let era := z / 146097 in
  let doe := z - era * 146097 in
  let yoe := (doe - doe / 1460 + doe / 36524 - doe / 146096) / 365 in
  let y := yoe + era * 400 in
  let doy := doe - (365 * yoe + yoe / 4 - yoe / 100) in
  let mp := (5 * doy + 2) / 153 in
  let d := doy - (153 * mp + 2) / 5 + 1 in
  let m := if mp <? 10 then mp + 3 else mp - 9 in
  ((if m <=? 2 then y + 1 else y), m, d).
(** weekday - Sunday, 0 to 6; 1970-01-01 is a Thursday *)
Definition weekday (z : Z) : Z := (z + 4) mod 7.

Definition DAY : Z := 86400000.
(** ** date library: time zones (contract): the offset to UTC in seconds before the first transition, then the transitions
    (instant in seconds, offset in seconds after it), in increasing order *)
Record zone := Zone { z_first : Z; z_changes : list (Z * Z) }.
Fixpoint offset_from (o : Z) (l : list (Z * Z)) (t : Z) : Z :=
  match l with [] => o | (s, o') :: r => if 1000 * s <=? t then offset_from o' r t else o end.
(** get_info(sys_time).offset *)
Definition offset_at (z : zone) (t : Z) : Z := offset_from (z_first z) (z_changes z) t.
Definition utc : zone := Zone 0 [].
(** make_zoned(zone, local_time): the instants with that local time *)
Definition instants (z : zone) (local : Z) : list Z :=
  filter (fun t => t + 1000 * offset_at z t =? local)
         (map (fun o => local - 1000 * o) (nodup Z.eq_dec (z_first z :: map snd (z_changes z)))).
Definition to_sys (z : zone) (local : Z) : res Z := match instants z local with [t] => Ok t | _ => Throws end.
Definition to_local (z : zone) (t : Z) : Z := t + 1000 * offset_at z t.

(** static_cast<int> of a floor *)
Definition floorZ (x : R) : Z := Int_part x.
Definition to_int (n : Z) : res Z := if (- 2147483648 <=? n) && (n <=? 2147483647) then Ok n else Undef.
(** The duration of FrTimeServices.cpp 59-61 and FrTimeZone.cpp 110-113 *)
Definition elapsed (time : R) : res Z :=
  secondes <<- to_int (floorZ time);
  milliseconds <<- to_int (floorZ (1000 * (time - IZR (floorZ time)))%R);
  Ok (1000 * secondes + milliseconds).

(** ** FrTimeServices: c_time, m_initTime, m_initDay (days) *)
Record timeserv := TS { ts_c : Z; ts_init : Z; ts_day : Z }.
(** Constructor FrTimeServices.cpp 20-27: the local time of the clock; c_time is not initialised *)
Definition new_timeserv (c now_local : Z) : timeserv := TS c (now_local - DAY * (now_local / DAY)) (now_local / DAY).
(** 33-36, 38-40, 42-47, 49-51, 53-55 *)
Definition SetStartingTimeHMS (s : timeserv) (h m sec : Z) : timeserv := TS (ts_c s) (1000 * (3600 * h + 60 * m + sec)) (ts_day s).
Definition SetStartingTimeMs (s : timeserv) (time : Z) : timeserv := TS (ts_c s) time (ts_day s).
Definition SetStartingTimeZoned (s : timeserv) (z : zone) (t : Z) : timeserv :=
  let lt := to_local z t in TS (ts_c s) (lt - DAY * (lt / DAY)) (lt / DAY).
Definition SetStartingDay (s : timeserv) (day : Z) : timeserv := TS (ts_c s) (ts_init s) day.
Definition SetStartingDayYMD (s : timeserv) (y m d : Z) : timeserv := TS (ts_c s) (ts_init s) (days_from_civil y m d).
(** Initialize 77-79, Update 57-63 *)
Definition ts_initialize (s : timeserv) : timeserv := TS (ts_init s) (ts_init s) (ts_day s).
Definition ts_update (s : timeserv) (time : R) : res timeserv := e <<- elapsed time; Ok (TS (ts_init s + e) (ts_init s) (ts_day s)).
(** GetTime FrTimeServices.h 76-78 and 83-87, GetUTCTime 91-94 *)
Definition TGetTime (s : timeserv) (z : zone) : res Z := t <<- to_sys z (DAY * ts_day s + ts_c s); Ok (to_local z t).
Definition TGetUTCTime (s : timeserv) : res Z := TGetTime s utc.
(** GetTimeZoneOffset FrTimeServices.cpp 65-69, in minutes *)
Definition TGetTimeZoneOffset (s : timeserv) (z : zone) : res R :=
  t <<- to_sys utc (DAY * ts_day s + ts_c s); Ok (IZR (offset_at z t) / 60)%R.
(** FrEnvironment::GetYear FrEnvironment.cpp 122-126 *)
Definition GetYear (s : timeserv) : res Z := lt <<- TGetUTCTime s; Ok (fst (fst (civil_from_days (lt / DAY)))).

(** ** FrTimeZone: m_zonedTime (zone and instant), m_UtcOrLocal, m_sysDays, m_localDays, m_initTime, m_timeZone *)
Inductive utc_local := MODE_UTC | MODE_LOCAL.
Record timezone := TZ { tz_zoned : zone * Z; tz_mode : utc_local; tz_sys : Z; tz_local : Z; tz_init : Z; tz_zone : zone }.
(** Constructor FrTimeZone.cpp 125-132 and member initialisers of FrTimeZone.h; default zoned_time: UTC, 1970-01-01 *)
Definition new_timezone (current : zone) (now : Z) : timezone :=
  let lt := to_local current now in TZ (utc, 0) MODE_LOCAL 0 (lt / DAY) (lt - DAY * (lt / DAY)) current.
(** FrTimeZone.h SetSysOrLocal, SetTimeZone; FrTimeZone.cpp SetDay 75-84, SetTime 86-88 *)
Definition SetSysOrLocal (s : timezone) (m : utc_local) : timezone := TZ (tz_zoned s) m (tz_sys s) (tz_local s) (tz_init s) (tz_zone s).
Definition SetTimeZone (s : timezone) (z : zone) : timezone := TZ (tz_zoned s) (tz_mode s) (tz_sys s) (tz_local s) (tz_init s) z.
Definition SetDay (s : timezone) (y m d : Z) : timezone :=
  match tz_mode s with
  | MODE_UTC => TZ (tz_zoned s) (tz_mode s) (days_from_civil y m d) (tz_local s) (tz_init s) (tz_zone s)
  | MODE_LOCAL => TZ (tz_zoned s) (tz_mode s) (tz_sys s) (days_from_civil y m d) (tz_init s) (tz_zone s)
  end.
Definition SetTime (s : timezone) (h m sec : Z) : timezone :=
  TZ (tz_zoned s) (tz_mode s) (tz_sys s) (tz_local s) (1000 * (3600 * h + 60 * m + sec)) (tz_zone s).
(** SetZoneDayTime 67-73 *)
Definition SetZoneDayTime (s : timezone) (z : zone) (y m d h mi sec : Z) (mode : utc_local) : timezone :=
  SetTime (SetDay (SetTimeZone (SetSysOrLocal s mode) z) y m d) h mi sec.
(** The two assignments to m_zonedTime: Initialize 95-106 with m_initTime, Update 108-123 *)
Definition zoned_at (s : timezone) (tod : Z) : res timezone :=
  t <<- (match tz_mode s with MODE_UTC => Ok (DAY * tz_sys s + tod) | MODE_LOCAL => to_sys (tz_zone s) (DAY * tz_local s + tod) end);
  Ok (TZ (tz_zone s, t) (tz_mode s) (tz_sys s) (tz_local s) (tz_init s) (tz_zone s)).
Definition tz_initialize (s : timezone) : res timezone := zoned_at s (tz_init s).
Definition tz_update (s : timezone) (time : R) : res timezone := e <<- elapsed time; zoned_at s (tz_init s + e).
(** FrTimeZone.h GetUTCTime, GetLocalTime; FrTimeZone.cpp GetTimeZoneOffset 90-93 *)
Definition ZGetUTCTime (s : timezone) : Z := snd (tz_zoned s).
Definition ZGetLocalTime (s : timezone) : Z := to_local (fst (tz_zoned s)) (snd (tz_zoned s)).
Definition ZGetTimeZoneOffset (s : timezone) : R := (IZR (offset_at (tz_zone s) (ZGetUTCTime s)) / 60)%R.

(** ** struct tm: seconds, minutes, hours, day of the month, month (from 0), years since 1900, day of the week, day of the year *)
Record tm := TM { tm_sec : Z; tm_min : Z; tm_hour : Z; tm_mday : Z; tm_mon : Z; tm_year : Z; tm_wday : Z; tm_yday : Z }.
(** UTC_to_tm FrTimeZone.cpp 19-36 and local_to_tm 38-55 are the same function of the instant / local time *)
Definition to_tm (lt : Z) : tm :=
  let ld := lt / DAY in
  let tod := lt - DAY * ld in
  let '(y, m, d) := civil_from_days ld in
  TM (tod / 1000 mod 60) (tod / 60000 mod 60) (tod / 3600000) d (m - 1) (y - 1900) (weekday ld) (ld - days_from_civil y 1 1).
Definition UTC_to_tm (s : timezone) : tm := to_tm (ZGetUTCTime s).
Definition local_to_tm (s : timezone) : tm := to_tm (ZGetLocalTime s).
(** to_UTC_time 57-60, to_local_time 62-65, in seconds *)
Definition from_tm (t : tm) : Z :=
  86400 * days_from_civil (tm_year t + 1900) (tm_mon t + 1) (tm_mday t) + 3600 * tm_hour t + 60 * tm_min t + tm_sec t.
