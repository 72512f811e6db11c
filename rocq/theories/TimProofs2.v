From Coq Require Import Reals List ZArith Bool Lia Lra.
From Verif Require Import SeaModel TimModel TimSpec TimProofs.
Import ListNotations.
Open Scope Z_scope.

Lemma bind_ok : forall (A B : Type) (r : res A) (f : A -> res B) b, rbind r f = Ok b -> exists a, r = Ok a /\ f a = Ok b.
Proof. intros A B [] f b H; try discriminate. eauto. Qed.
Ltac bo H a E := apply bind_ok in H; destruct H as [a [E H]].

Lemma ok_inj : forall (A : Type) (a b : A), Ok a = Ok b -> a = b.
Proof. intros A a b H. congruence. Qed.

(** ** FrTimeServices *)
Lemma get_time : forall s z r, TGetTime s z = Ok r -> r = DAY * ts_day s + ts_c s.
Proof. intros s z r H. unfold TGetTime in H. bo H t E. inversion H; subst. apply to_sys_ok in E. destruct E as [E _]. exact E. Qed.
Lemma get_utc : forall s, TGetUTCTime s = Ok (DAY * ts_day s + ts_c s).
Proof. intro s. unfold TGetUTCTime, TGetTime. rewrite utc_sys. cbn [rbind]. f_equal. unfold to_local, utc, offset_at. cbn [z_first z_changes offset_from]. lia. Qed.
Lemma ts_update_ok : forall s t s', ts_update s t = Ok s' -> exists n, ms_of t n /\ in_range t /\ s' = TS (ts_init s + n) (ts_init s) (ts_day s).
Proof. intros s t s' H. unfold ts_update in H. bo H n E. inversion H; subst. destruct (elapsed_inv _ _ E). exists n. split; [assumption|]. split; [assumption|reflexivity]. Qed.
Lemma ts_update_run : forall s t n, in_range t -> ms_of t n -> ts_update s t = Ok (TS (ts_init s + n) (ts_init s) (ts_day s)).
Proof. intros s t n G M. unfold ts_update. rewrite (elapsed_ok t G). cbn [rbind]. rewrite (ms_unique t _ _ (ms_exists t) M). reflexivity. Qed.
Lemma ts_steps_keep : forall l s s', ts_steps s l = Ok s' -> ts_init s' = ts_init s /\ ts_day s' = ts_day s.
Proof.
  induction l as [|t l IH]; intros s s' H; cbn [ts_steps] in H; [inversion H; subst; split; reflexivity|]. bo H m E.
  destruct (IH _ _ H) as [A B]. destruct (ts_update_ok _ _ _ E) as (n & _ & _ & ->). cbn in A, B. split; assumption.
Qed.
Lemma ts_steps_last : forall l s t s', ts_steps s (l ++ [t]) = Ok s' -> exists m, ts_steps s l = Ok m /\ ts_update m t = Ok s'.
Proof.
  induction l as [|u l IH]; intros s t s' H; cbn [app ts_steps] in *; [exists s; split; [reflexivity|]; bo H m E; inversion H; subst; exact E|].
  bo H m E. destruct (IH _ _ _ H) as [m' [A B]]. exists m'. rewrite E. split; assumption.
Qed.
Lemma floor_day : forall n, 0 <= n - DAY * (n / DAY) < DAY.
Proof. intro n. pose proof (Z.mod_pos_bound n DAY ltac:(unfold DAY; lia)). rewrite Z.mod_eq in H by (unfold DAY; lia). lia. Qed.
Lemma day_div : forall d t, 0 <= t < DAY -> (DAY * d + t) / DAY = d.
Proof. intros d t H. symmetry. apply (Z.div_unique_pos _ _ d t); [exact H|reflexivity]. Qed.

(** ** FrTimeZone *)
Lemma zoned_utc : forall s x, tz_mode s = MODE_UTC -> zoned_at s x = Ok (TZ (tz_zone s, DAY * tz_sys s + x) MODE_UTC (tz_sys s) (tz_local s) (tz_init s) (tz_zone s)).
Proof. intros s x H. unfold zoned_at. rewrite H. reflexivity. Qed.
Lemma zoned_local : forall s x s', tz_mode s = MODE_LOCAL -> zoned_at s x = Ok s' ->
  reads (tz_zone s) (ZGetUTCTime s') (DAY * tz_local s + x) /\ (forall u, reads (tz_zone s) u (DAY * tz_local s + x) -> u = ZGetUTCTime s') /\
  ZGetLocalTime s' = DAY * tz_local s + x /\ s' = TZ (tz_zone s, ZGetUTCTime s') MODE_LOCAL (tz_sys s) (tz_local s) (tz_init s) (tz_zone s).
Proof.
  intros s x s' M H. unfold zoned_at in H. rewrite M in H. bo H t E. apply to_sys_ok in E. destruct E as [E U]. inversion H; subst. unfold ZGetUTCTime, ZGetLocalTime. cbn [tz_zoned fst snd].
  repeat split; assumption.
Qed.
Lemma zoned_keep : forall s x s', zoned_at s x = Ok s' -> tz_mode s' = tz_mode s /\ tz_sys s' = tz_sys s /\ tz_local s' = tz_local s /\ tz_init s' = tz_init s /\ tz_zone s' = tz_zone s /\ fst (tz_zoned s') = tz_zone s.
Proof. intros s x s' H. unfold zoned_at in H. bo H t E. inversion H; subst. repeat split. Qed.
Lemma tz_update_inv : forall s t s', tz_update s t = Ok s' -> exists n, ms_of t n /\ zoned_at s (tz_init s + n) = Ok s'.
Proof. intros s t s' H. unfold tz_update in H. bo H n E. destruct (elapsed_inv _ _ E). exists n. split; assumption. Qed.
Lemma tz_update_run : forall s t n, in_range t -> ms_of t n -> tz_update s t = zoned_at s (tz_init s + n).
Proof. intros s t n G M. unfold tz_update. rewrite (elapsed_ok t G). cbn [rbind]. rewrite (ms_unique t _ _ (ms_exists t) M). reflexivity. Qed.
Lemma tz_steps_keep : forall l s s', tz_steps s l = Ok s' -> tz_mode s' = tz_mode s /\ tz_sys s' = tz_sys s /\ tz_local s' = tz_local s /\ tz_init s' = tz_init s /\ tz_zone s' = tz_zone s.
Proof.
  induction l as [|t l IH]; intros s s' H; cbn [tz_steps] in H; [inversion H; subst; repeat split|]. bo H m E. destruct (tz_update_inv _ _ _ E) as (n & _ & Z).
  apply zoned_keep in Z. destruct Z as (Z1 & Z2 & Z3 & Z4 & Z5 & _). destruct (IH _ _ H) as (A & B & C & D & F). repeat split; congruence.
Qed.
Lemma tz_steps_last : forall l s t s', tz_steps s (l ++ [t]) = Ok s' -> exists m, tz_steps s l = Ok m /\ tz_update m t = Ok s'.
Proof.
  induction l as [|u l IH]; intros s t s' H; cbn [app tz_steps] in *; [exists s; split; [reflexivity|]; bo H m E; inversion H; subst; exact E|].
  bo H m E. destruct (IH _ _ _ H) as [m' [A B]]. exists m'. rewrite E. split; assumption.
Qed.
Lemma keep_local_offset : forall z s' t, s' = TZ (z, t) (tz_mode s') (tz_sys s') (tz_local s') (tz_init s') z -> ZGetLocalTime s' = ZGetUTCTime s' + 1000 * offset_at z (ZGetUTCTime s').
Proof. intros z s' t ->. reflexivity. Qed.

(** ** struct tm *)
Lemma tm_parts : forall lt, let t := to_tm lt in
  lt / 1000 = 86400 * (lt / DAY) + 3600 * tm_hour t + 60 * tm_min t + tm_sec t /\ 0 <= tm_hour t <= 23 /\ 0 <= tm_min t <= 59 /\ 0 <= tm_sec t <= 59.
Proof.
  intros lt t. unfold t, to_tm. cbv zeta. destruct (civil_from_days (lt / DAY)) as [[y m] d]. cbn [tm_hour tm_min tm_sec].
  pose proof (floor_day lt) as B. set (x := lt - DAY * (lt / DAY)) in *. assert (lt = DAY * (lt / DAY) + x) as E by (unfold x; lia). set (ld := lt / DAY) in *. clearbody x ld. subst lt. unfold DAY in *.
  replace (x / 60000) with (x / 1000 / 60) by (rewrite Z.div_div by lia; reflexivity). replace (x / 3600000) with (x / 1000 / 60 / 60) by (rewrite !Z.div_div by lia; reflexivity).
  replace (86400000 * ld + x) with (x + (86400 * ld) * 1000) by lia. rewrite Z.div_add by lia. set (s := x / 1000). assert (0 <= s < 86400) as Bs by (unfold s; split; [apply Z.div_pos; lia|apply Z.div_lt_upper_bound; lia]). clearbody s.
  pose proof (Z.mod_pos_bound s 60 ltac:(lia)). pose proof (Z.mod_pos_bound (s / 60) 60 ltac:(lia)). pose proof (Z_div_mod_eq_full s 60). pose proof (Z_div_mod_eq_full (s / 60) 60).
  assert (0 <= s / 60 / 60 <= 23) by (split; [apply Z.div_pos; [apply Z.div_pos; lia|lia]|apply Z.lt_succ_r; apply Z.div_lt_upper_bound; [lia|]; apply Z.div_lt_upper_bound; lia]). lia.
Qed.
Lemma tm_date : forall lt, let t := to_tm lt in
  valid (tm_year t + 1900) (tm_mon t + 1) (tm_mday t) /\ days_from_civil (tm_year t + 1900) (tm_mon t + 1) (tm_mday t) = lt / DAY /\
  tm_yday t = days_before (tm_year t + 1900) (Z.to_nat (tm_mon t)) + tm_mday t - 1 /\ tm_wday t = weekday (lt / DAY).
Proof.
  intros lt t. unfold t, to_tm. cbv zeta. destruct (civil_from_days (lt / DAY)) as [[y m] d] eqn:E. cbn [tm_year tm_mon tm_mday tm_yday tm_wday].
  replace (y - 1900 + 1900) with y by lia. replace (m - 1 + 1) with m by lia. destruct (day_facts _ _ _ _ E) as [D V]. split; [exact V|]. split; [exact D|]. split; [|reflexivity].
  rewrite <- D. exact (proj2 (proj2 (date_facts y m d V))).
Qed.
Lemma before_bound : forall y n, (n <= 11)%nat -> 0 <= days_before y n <= 335.
Proof.
  intros y n H. assert (forall m, 28 <= month_length y m <= 31) as L by (intro m; unfold month_length; destruct (m =? 2); [destruct (leap y)|destruct (_ || _)%bool]; lia).
  unfold days_before, month_length. do 12 (destruct n as [|n]; [destruct (leap y); cbn; lia|]). lia.
Qed.
