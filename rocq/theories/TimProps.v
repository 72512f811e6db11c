(** Properties C207-C213: the calendar of a simulation. *)
From Coq Require Import Reals List ZArith Bool Lia Lra.
From Verif Require Import SeaModel TimModel TimSpec TimProofs TimProofs2.
Import ListNotations.
Open Scope Z_scope.

(** C207: the time service reads the starting day and time plus the simulation time of the last update rounded down to a millisecond: it does not drift with
    the number of steps, never goes back, gives the offset of a zone at that instant, and works for 68 years on each side (beyond, the conversion is undefined). *)
Theorem C207_service_clock : forall s l t,
  (forall s', ts_steps (ts_initialize s) (l ++ [t]) = Ok s' -> exists n, ms_of t n /\ TGetUTCTime s' = Ok (DAY * ts_day s + ts_init s + n)) /\
  (forall m, ts_steps (ts_initialize s) l = Ok m -> (in_range t -> exists s', ts_update m t = Ok s') /\ (~ in_range t -> ts_update m t = Undef)) /\
  (forall m u s1 s2 a b, ts_update m t = Ok s1 -> ts_update s1 u = Ok s2 -> (t <= u)%R -> TGetUTCTime s1 = Ok a -> TGetUTCTime s2 = Ok b -> a <= b) /\
  TGetUTCTime (ts_initialize s) = Ok (DAY * ts_day s + ts_init s) /\
  (forall m z u, TGetUTCTime m = Ok u -> exists r, TGetTimeZoneOffset m z = Ok r /\ (60 * r)%R = IZR (offset_at z u)).
Proof.
  intros s l t. split; [|split; [|split; [|split]]].
  - intros s' H. apply ts_steps_last in H. destruct H as [m [H E]]. destruct (ts_steps_keep _ _ _ H) as [A B]. destruct (ts_update_ok _ _ _ E) as (n & M & _ & ->).
    exists n. split; [exact M|]. rewrite get_utc. cbn [ts_day ts_c]. rewrite A, B. cbn. f_equal. lia.
  - intros m H. split; intro G; unfold ts_update; [rewrite (elapsed_ok t G); cbn [rbind]; eauto|rewrite (elapsed_out t G); reflexivity].
  - intros m u s1 s2 a b E1 E2 Le A B. destruct (ts_update_ok _ _ _ E1) as (n & M & _ & ->). destruct (ts_update_ok _ _ _ E2) as (k & K & _ & ->).
    rewrite get_utc in A, B. cbn [ts_day ts_c ts_init] in A, B. inversion A; inversion B; subst. pose proof (ms_mono _ _ _ _ Le M K). lia.
  - apply get_utc.
  - intros m z u U. rewrite get_utc in U. apply ok_inj in U. unfold TGetTimeZoneOffset. rewrite utc_sys. cbn [rbind]. eexists. split; [reflexivity|]. rewrite U. field.
Qed.
Example C207_inhabited : exists s', ts_steps (ts_initialize (SetStartingTimeHMS (SetStartingDayYMD (new_timeserv 0 0) 2019 3 31) 1 30 0)) ([1 / 2]%R ++ [5 / 2]%R) = Ok s' /\ TGetUTCTime s' = Ok (DAY * 17986 + 5402500).
Proof.
  assert (forall x, (0 <= x <= 3)%R -> in_range x) as G by (intros x H; unfold in_range; lra).
  cbn [app ts_steps]. rewrite (ts_update_run _ _ 500) by (apply G || unfold ms_of; lra). cbn [rbind]. rewrite (ts_update_run _ _ 2500) by (apply G || unfold ms_of; lra). cbn [rbind].
  eexists. split; [reflexivity|]. rewrite get_utc. reflexivity.
Qed.

(** C208: a starting time of day and day set by numbers, by a duration or by a zoned instant reads back, and the year is the one of that date. *)
Theorem C208_starting_time : forall s,
  (forall y m d h mi sec, TGetUTCTime (ts_initialize (SetStartingTimeHMS (SetStartingDayYMD s y m d) h mi sec)) = Ok (DAY * days_from_civil y m d + tod h mi sec)) /\
  (forall y m d ms, valid y m d -> 0 <= ms < DAY -> GetYear (ts_initialize (SetStartingTimeMs (SetStartingDayYMD s y m d) ms)) = Ok y) /\
  (forall z t, let s' := ts_initialize (SetStartingTimeZoned s z t) in TGetUTCTime s' = Ok (t + 1000 * offset_at z t) /\ 0 <= ts_init s' < DAY /\
     forall r, TGetTime s' z = Ok r -> r = t + 1000 * offset_at z t) /\
  (forall day ms, TGetUTCTime (ts_initialize (SetStartingTimeMs (SetStartingDay s day) ms)) = Ok (DAY * day + ms)).
Proof.
  intro s. split; [|split; [|split]].
  - intros. rewrite get_utc. reflexivity.
  - intros y m d ms V B. unfold GetYear. rewrite get_utc. cbn [rbind ts_initialize SetStartingTimeMs SetStartingDayYMD ts_day ts_c ts_init]. rewrite day_div by exact B.
    rewrite (proj1 (date_facts y m d V)). reflexivity.
  - intros z t s'. unfold s', SetStartingTimeZoned, ts_initialize. cbv zeta. unfold to_local. set (lt := t + 1000 * offset_at z t). split; [rewrite get_utc; cbn; f_equal; lia|]. split; [apply floor_day|].
    intros r H. apply get_time in H. cbn in H. lia.
  - intros. rewrite get_utc. reflexivity.
Qed.
Example C208_inhabited : valid 2020 2 29 /\ GetYear (ts_initialize (SetStartingTimeMs (SetStartingDayYMD (new_timeserv 0 0) 2020 2 29) 1000)) = Ok 2020.
Proof. split; [unfold valid; cbn; lia|]. apply (C208_starting_time (new_timeserv 0 0)); [unfold valid; cbn; lia|unfold DAY; lia]. Qed.

(** C209: the time in a zone is not converted: wherever it is defined it is the UTC reading itself, so a zone with an offset gets the wrong time, and a start
    given as an instant of a zone shifts the UTC time by the offset of that zone. *)
Theorem C209_zone_time_refuted :
  (forall s z r u, TGetTime s z = Ok r -> TGetUTCTime s = Ok u -> r = u /\ (offset_at z u <> 0 -> r <> to_local z u)) /\
  (forall s z t u, TGetUTCTime (ts_initialize (SetStartingTimeZoned s z t)) = Ok u -> offset_at z t <> 0 -> u <> t).
Proof.
  split.
  - intros s z r u H U. rewrite get_utc in U. apply ok_inj in U. apply get_time in H. split; [congruence|]. intros O. unfold to_local. lia.
  - intros s z t u U O. rewrite (proj1 (proj1 (proj2 (proj2 (C208_starting_time s))) z t)) in U. apply ok_inj in U. lia.
Qed.
Example C209_inhabited : TGetTime (TS 0 0 18000) (Zone 3600 []) = Ok (DAY * 18000) /\ offset_at (Zone 3600 []) (DAY * 18000) = 3600.
Proof. split; reflexivity. Qed.

(** C210: a FrTimeZone set in UTC reads, after each update, the given date and time plus the simulation time rounded down to a millisecond, and never fails;
    set in local time it is the local clock that reads so, at the only instant where it does, and the update throws exactly when there is no such instant or
    more than one; in both cases local time = UTC + offset. *)
Theorem C210_time_zone : forall s0 z y m d h mi sec mode l t, let s := SetZoneDayTime s0 z y m d h mi sec mode in let start := DAY * days_from_civil y m d + tod h mi sec in
  forall st, tz_steps s l = Ok st -> in_range t -> exists n, ms_of t n /\
  (mode = MODE_UTC -> exists s', tz_update st t = Ok s' /\ ZGetUTCTime s' = start + n) /\
  (mode = MODE_LOCAL -> (tz_update st t = Throws <-> (forall u, ~ reads z u (start + n)) \/ (exists u v, u <> v /\ reads z u (start + n) /\ reads z v (start + n))) /\
     (forall s', tz_update st t = Ok s' -> ZGetLocalTime s' = start + n /\ forall u, reads z u (start + n) <-> u = ZGetUTCTime s')) /\
  (forall s', tz_update st t = Ok s' -> ZGetLocalTime s' = ZGetUTCTime s' + 1000 * offset_at z (ZGetUTCTime s') /\ (60 * ZGetTimeZoneOffset s')%R = IZR (offset_at z (ZGetUTCTime s'))).
Proof.
  intros s0 z y m d h mi sec mode l t s start st H G. destruct (tz_steps_keep _ _ _ H) as (K1 & K2 & K3 & K4 & K5).
  assert (tz_init st = tod h mi sec /\ tz_zone st = z /\ tz_mode st = mode) as (I & Z & M) by (rewrite K4, K5, K1; unfold s, SetZoneDayTime, SetTime, SetDay; destruct mode; cbn; repeat split).
  pose proof (ms_exists t) as MS. set (n := floorZ (1000 * t)) in *. exists n. split; [exact MS|]. rewrite (tz_update_run st t n G MS). split; [|split].
  - intros ->. assert (tz_sys st = days_from_civil y m d) as D by (rewrite K2; reflexivity). rewrite (zoned_utc _ _ M). eexists. split; [reflexivity|]. unfold ZGetUTCTime. cbn [tz_zoned snd]. rewrite D, I. unfold start. lia.
  - intros ->. assert (tz_local st = days_from_civil y m d) as D by (rewrite K3; reflexivity).
    assert (DAY * tz_local st + (tz_init st + n) = start + n) as E by (rewrite D, I; unfold start; lia). split.
    + unfold zoned_at. rewrite M, E, Z. rewrite <- to_sys_throws. destruct (sys_cases z (start + n)) as [[u U]|U]; rewrite U; cbn [rbind]; split; intros; try discriminate; reflexivity.
    + intros s' U. destruct (zoned_local _ _ _ M U) as (R1 & R2 & R3 & _). rewrite E, Z in *. split; [exact R3|]. intro u. split; [apply R2|intros ->; exact R1].
  - intros s' U. destruct (zoned_keep _ _ _ U) as (_ & _ & _ & _ & Z1 & Z2). split; [unfold ZGetLocalTime, ZGetUTCTime, to_local; rewrite Z2, Z; reflexivity|]. unfold ZGetTimeZoneOffset. rewrite Z1, Z. field.
Qed.
Example C210_inhabited : exists st, tz_steps (SetZoneDayTime (new_timezone utc 0) (Zone 3600 []) 2019 1 1 12 0 0 MODE_LOCAL) [0%R] = Ok st /\ in_range 10.
Proof.
  split with (TZ (Zone 3600 [], DAY * 17897 + 39600000) MODE_LOCAL 0 17897 43200000 (Zone 3600 [])). split; [|unfold in_range; lra].
  cbn [tz_steps]. rewrite (tz_update_run _ _ 0) by (unfold in_range, ms_of; lra). reflexivity.
Qed.

(** C211: in local mode the UTC time does not advance with the simulation: between two updates it advances by the elapsed time minus the change of offset, and
    a simulation that runs into the hour that a clock change skips stops with an exception (here Paris on 2019-03-31). *)
Theorem C211_local_mode_refuted :
  (forall s t u s1 s2 n k, tz_mode s = MODE_LOCAL -> tz_update s t = Ok s1 -> tz_update s1 u = Ok s2 -> ms_of t n -> ms_of u k ->
     ZGetUTCTime s2 - ZGetUTCTime s1 = k - n - 1000 * (offset_at (tz_zone s) (ZGetUTCTime s2) - offset_at (tz_zone s) (ZGetUTCTime s1))) /\
  (let paris := Zone 3600 [(1553994000, 7200)] in let s := SetZoneDayTime (new_timezone utc 0) paris 2019 3 31 1 59 59 MODE_LOCAL in
   (exists s0, tz_update s 0 = Ok s0) /\ tz_update s 1 = Throws /\ exists s1 s0, tz_update s 0 = Ok s0 /\ tz_update s0 3601 = Ok s1 /\ ZGetUTCTime s1 - ZGetUTCTime s0 = 1000).
Proof.
  split.
  - intros s t u s1 s2 n k M E1 E2 Mn Mk. destruct (tz_update_inv _ _ _ E1) as (n' & N' & Z1). destruct (tz_update_inv _ _ _ E2) as (k' & K' & Z2).
    rewrite (ms_unique _ _ _ N' Mn) in Z1. rewrite (ms_unique _ _ _ K' Mk) in Z2. destruct (zoned_keep _ _ _ Z1) as (A & _ & B & C & D & _). rewrite M in A.
    destruct (zoned_local _ _ _ M Z1) as (R1 & _). destruct (zoned_local _ _ _ A Z2) as (R2 & _). rewrite B, C, D in R2. unfold reads in *. lia.
  - intros paris s. assert (tz_update s 0 = zoned_at s (tz_init s + 0)) as E0 by (apply tz_update_run; unfold in_range, ms_of; lra).
    assert (tz_update s 1 = zoned_at s (tz_init s + 1000)) as E1 by (apply tz_update_run; unfold in_range, ms_of; lra).
    split; [eexists; rewrite E0; reflexivity|]. split; [rewrite E1; reflexivity|]. eexists. eexists. split; [rewrite E0; reflexivity|].
    rewrite (tz_update_run _ _ 3601000) by (unfold in_range, ms_of; lra). split; reflexivity.
Qed.

(** C212: the day is stored for the mode in force when it is set: choosing UTC afterwards forgets it and the simulation starts on 1970-01-01. *)
Theorem C212_set_day_order_refuted : forall current now y m d h mi sec s', tz_initialize (SetTime (SetSysOrLocal (SetDay (new_timezone current now) y m d) MODE_UTC) h mi sec) = Ok s' ->
  ZGetUTCTime s' = tod h mi sec.
Proof. intros current now y m d h mi sec s' H. unfold tz_initialize in H. rewrite zoned_utc in H by reflexivity. inversion H; subst. unfold ZGetUTCTime. cbn. unfold tod. lia. Qed.
Example C212_inhabited : exists s', tz_initialize (SetTime (SetSysOrLocal (SetDay (new_timezone utc 0) 2019 5 1) MODE_UTC) 8 0 0) = Ok s'.
Proof. eexists. reflexivity. Qed.

(** C213: the broken-down UTC and local times are the Gregorian date and the clock of the instant (the days follow each other with the leap years), with the
    fields in their ranges, the day of the year and the day of the week; and they convert back to the same second. *)
Theorem C213_broken_down_time : forall s lt t, (lt = ZGetUTCTime s /\ t = UTC_to_tm s) \/ (lt = ZGetLocalTime s /\ t = local_to_tm s) ->
  from_tm t = lt / 1000 /\
  valid (tm_year t + 1900) (tm_mon t + 1) (tm_mday t) /\ 0 <= tm_hour t <= 23 /\ 0 <= tm_min t <= 59 /\ 0 <= tm_sec t <= 59 /\
  tm_yday t = days_before (tm_year t + 1900) (Z.to_nat (tm_mon t)) + tm_mday t - 1 /\ 0 <= tm_yday t <= 365 /\
  (tm_year (to_tm (lt + DAY)) + 1900, tm_mon (to_tm (lt + DAY)) + 1, tm_mday (to_tm (lt + DAY))) = next_day (tm_year t + 1900, tm_mon t + 1, tm_mday t) /\
  0 <= tm_wday t <= 6 /\ tm_wday (to_tm (lt + DAY)) = (tm_wday t + 1) mod 7 /\
  (forall lt', 0 <= lt' - DAY * (lt / DAY) < DAY -> tm_wday (to_tm lt') = tm_wday t) /\
  to_tm 0 = TM 0 0 0 1 0 70 4 0.
Proof.
  intros s lt t H. assert (t = to_tm lt) as -> by (destruct H as [[-> ->]|[-> ->]]; reflexivity). clear H.
  destruct (tm_parts lt) as (P & Ph & Pm & Ps). destruct (tm_date lt) as (V & D & Y & W). destruct (tm_date (lt + DAY)) as (V' & D' & _ & W').
  assert ((lt + DAY) / DAY = lt / DAY + 1) as ED by (replace (lt + DAY) with (lt + 1 * DAY) by lia; apply Z.div_add; unfold DAY; lia). rewrite ED in *.
  split; [unfold from_tm; rewrite D; lia|]. split; [exact V|]. split; [exact Ph|]. split; [exact Pm|]. split; [exact Ps|]. split; [exact Y|].
  split. { pose proof (before_bound (tm_year (to_tm lt) + 1900) (Z.to_nat (tm_mon (to_tm lt)))). unfold valid in V. assert (month_length (tm_year (to_tm lt) + 1900) (tm_mon (to_tm lt) + 1) <= 31) by (unfold month_length; destruct (_ =? 2); [destruct (leap _)|destruct (_ || _)%bool]; lia). rewrite Y. lia. }
  split. { pose proof (date_facts _ _ _ V) as (_ & F & _). pose proof (next_valid _ _ _ V) as NV. destruct (next_day _) as [[y2 m2] d2]. rewrite D in F. pose proof (proj1 (date_facts _ _ _ V')) as F1. pose proof (proj1 (date_facts _ _ _ NV)) as F2. rewrite D' in F1. rewrite F in F2. congruence. }
  rewrite W, W'. unfold weekday. split; [pose proof (Z.mod_pos_bound (lt / DAY + 4) 7); lia|]. split; [rewrite Zplus_mod_idemp_l; f_equal; lia|]. split; [|reflexivity].
  intros lt' B. destruct (tm_date lt') as (_ & _ & _ & ->). unfold weekday. replace lt' with (DAY * (lt / DAY) + (lt' - DAY * (lt / DAY))) by lia. rewrite (day_div _ _ B). reflexivity.
Qed.
Example C213_inhabited : to_tm (DAY * 18321 + 3723004) = TM 3 2 1 29 1 120 6 59.
Proof. reflexivity. Qed.
