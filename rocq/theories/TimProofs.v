From Coq Require Import Reals List ZArith Bool Lia Lra FinFun.
From Verif Require Import SeaModel TimModel TimSpec.
Import ListNotations.
Open Scope Z_scope.

(** ** shifts by 400 years *)
Lemma div_shift : forall a b k, 0 < b -> (a + k * b) / b = a / b + k.
Proof. intros. apply Z.div_add. lia. Qed.
Lemma days_shift : forall y m d k, days_from_civil (y + 400 * k) m d = days_from_civil y m d + 146097 * k.
Proof.
  intros y m d k. unfold days_from_civil. cbv zeta. set (y' := if m <=? 2 then y - 1 else y).
  replace (if m <=? 2 then y + 400 * k - 1 else y + 400 * k) with (y' + k * 400) by (unfold y'; destruct (m <=? 2); lia).
  rewrite div_shift by lia. set (r := y' - y' / 400 * 400).
  replace (y' + k * 400 - (y' / 400 + k) * 400) with r by (unfold r; lia). lia.
Qed.
Lemma civil_shift : forall z k, civil_from_days (z + 146097 * k) = let '(y, m, d) := civil_from_days z in (y + 400 * k, m, d).
Proof.
  intros z k. unfold civil_from_days. cbv zeta. replace (z + 146097 * k + 719468) with (z + 719468 + k * 146097) by lia. set (w := z + 719468).
  rewrite div_shift by lia. replace (w + k * 146097 - (w / 146097 + k) * 146097) with (w - w / 146097 * 146097) by lia. set (doe := w - w / 146097 * 146097).
  set (yoe := (doe - doe / 1460 + doe / 36524 - doe / 146096) / 365). set (doy := doe - (365 * yoe + yoe / 4 - yoe / 100)). set (mp := (5 * doy + 2) / 153).
  destruct ((if mp <? 10 then mp + 3 else mp - 9) <=? 2); f_equal; f_equal; lia.
Qed.
Lemma leap_shift : forall y k, leap (y + 400 * k) = leap y.
Proof.
  intros y k. unfold leap. replace (y + 400 * k) with (y + 100 * k * 4) at 1 by lia. rewrite Z_mod_plus_full.
  replace (y + 400 * k) with (y + 4 * k * 100) at 1 by lia. rewrite Z_mod_plus_full. replace (y + 400 * k) with (y + k * 400) by lia. rewrite Z_mod_plus_full. reflexivity.
Qed.
Lemma length_shift : forall y m k, month_length (y + 400 * k) m = month_length y m.
Proof. intros. unfold month_length. rewrite leap_shift. reflexivity. Qed.
Lemma before_shift : forall y n k, days_before (y + 400 * k) n = days_before y n.
Proof. induction n as [|n IH]; intro k; [reflexivity|]. cbn [days_before]. rewrite IH, length_shift. reflexivity. Qed.

(** ** one era, by computation *)
Fixpoint upto (f : Z -> bool) (n : nat) (a : Z) : bool := match n with O => true | S k => f a && upto f k (a + 1) end.
Lemma upto_ok : forall f n a, upto f n a = true -> forall x, a <= x < a + Z.of_nat n -> f x = true.
Proof.
  induction n as [|n IH]; intros a H x Hx; [lia|]. cbn [upto] in H. apply andb_true_iff in H. destruct H as [H1 H2].
  destruct (Z.eq_dec x a) as [->|N]; [exact H1|]. apply (IH (a + 1) H2). lia.
Qed.
Definition date_ok (y m d : Z) : bool :=
  if d <=? month_length y m then
    let z := days_from_civil y m d in
    let '(y', m', d') := civil_from_days z in
    let '(y2, m2, d2) := next_day (y, m, d) in
    (y' =? y) && (m' =? m) && (d' =? d) && (days_from_civil y2 m2 d2 =? z + 1) && (z - days_from_civil y 1 1 =? days_before y (Z.to_nat (m - 1)) + d - 1)
  else true.
Definition month_ok (y m : Z) : bool := upto (date_ok y m) 31 1.
Definition year_ok (y : Z) : bool := upto (month_ok y) 12 1.
Lemma era_dates_ok : upto year_ok 400 0 = true. Proof. vm_cast_no_check (eq_refl true). Qed.
Lemma month_all : forall y m, month_ok y m = true -> forall d, 1 <= d < 1 + Z.of_nat 31 -> date_ok y m d = true.
Proof. intros y m H. exact (upto_ok (date_ok y m) 31 1 H). Qed.
Lemma year_all : forall y, year_ok y = true -> forall m, 1 <= m < 1 + Z.of_nat 12 -> month_ok y m = true.
Proof. intros y H. exact (upto_ok (month_ok y) 12 1 H). Qed.
Lemma era_all : forall y, 0 <= y < 0 + Z.of_nat 400 -> year_ok y = true.
Proof. exact (upto_ok year_ok 400 0 era_dates_ok). Qed.
Global Opaque month_ok year_ok.
Lemma all_dates : forall y m d, 0 <= y < 400 -> 1 <= m <= 12 -> 1 <= d <= 31 -> date_ok y m d = true.
Proof. intros y m d Hy Hm Hd. apply month_all; [apply year_all; [apply era_all; lia|lia]|lia]. Qed.

Lemma date_facts : forall y m d, valid y m d ->
  civil_from_days (days_from_civil y m d) = (y, m, d) /\
  (let '(y2, m2, d2) := next_day (y, m, d) in days_from_civil y2 m2 d2 = days_from_civil y m d + 1) /\
  days_from_civil y m d - days_from_civil y 1 1 = days_before y (Z.to_nat (m - 1)) + d - 1.
Proof.
  intros y m d [Hm Hd]. set (k := y / 400). set (x := y mod 400). assert (y = x + 400 * k) as Ey by (unfold x, k; pose proof (Z_div_mod_eq_full y 400); lia).
  assert (0 <= x < 400) as Hx by (apply Z.mod_pos_bound; lia). clearbody k x. subst y. rewrite length_shift in Hd.
  assert (month_length x m <= 31) as L by (unfold month_length; destruct (m =? 2); [destruct (leap x)|destruct (_ || _)%bool]; lia).
  pose proof (all_dates x m d Hx Hm ltac:(lia)) as E3.
  unfold date_ok in E3. destruct (d <=? month_length x m) eqn:Ed; [|apply Z.leb_gt in Ed; lia].
  rewrite days_shift, civil_shift, days_shift, before_shift.
  destruct (civil_from_days (days_from_civil x m d)) as [[y' m'] d'] eqn:Ec. destruct (next_day (x, m, d)) as [[y2 m2] d2] eqn:En.
  repeat rewrite andb_true_iff in E3. destruct E3 as [[[[E3 E4] E5] E6] E7]. apply Z.eqb_eq in E3, E4, E5, E6, E7. subst.
  split; [reflexivity|]. split; [|lia].
  assert (next_day (x + 400 * k, m, d) = (y2 + 400 * k, m2, d2)) as ->.
  { unfold next_day in *. rewrite length_shift. destruct (d <? month_length x m); [inversion En; subst; reflexivity|]. destruct (m <? 12); inversion En; subst; [reflexivity|f_equal; f_equal; lia]. }
  rewrite days_shift. lia.
Qed.
Lemma next_valid : forall y m d, valid y m d -> let '(y2, m2, d2) := next_day (y, m, d) in valid y2 m2 d2.
Proof.
  intros y m d [Hm Hd]. unfold next_day, valid. destruct (d <? month_length y m) eqn:E; [apply Z.ltb_lt in E; lia|].
  destruct (m <? 12) eqn:E'; [apply Z.ltb_lt in E'; split; [lia|]|]; (split; [lia|]); unfold month_length; [destruct (m + 1 =? 2); [destruct (leap y)|destruct (_ || _)%bool]; lia|cbn; lia].
Qed.
Lemma day_exists : forall z, exists y m d, valid y m d /\ days_from_civil y m d = z.
Proof.
  assert (forall z, 0 <= z -> exists y m d, valid y m d /\ days_from_civil y m d = z) as P.
  { apply natlike_ind; [exists 1970, 1, 1; split; [unfold valid; cbn; lia|reflexivity]|].
    intros z Hz (y & m & d & V & E). pose proof (date_facts y m d V) as (_ & F & _). pose proof (next_valid y m d V) as N. destruct (next_day (y, m, d)) as [[y2 m2] d2]. exists y2, m2, d2. split; [exact N|lia]. }
  intro z. destruct (P (z + 146097 * Z.abs z) ltac:(lia)) as (y & m & d & V & E). exists (y + 400 * (- Z.abs z)), m, d.
  split; [unfold valid in *; rewrite length_shift; exact V|]. rewrite days_shift, E. lia.
Qed.
Lemma day_facts : forall z y m d, civil_from_days z = (y, m, d) -> days_from_civil y m d = z /\ valid y m d.
Proof.
  intros z y m d H. destruct (day_exists z) as (y' & m' & d' & V & E). subst z. pose proof (date_facts _ _ _ V) as (F & _). rewrite F in H. inversion H; subst. split; [reflexivity|exact V].
Qed.

(** ** the clock *)
Lemma floor_bounds : forall x, (IZR (floorZ x) <= x < IZR (floorZ x) + 1)%R.
Proof. intro x. unfold floorZ. destruct (base_Int_part x) as [A B]. lra. Qed.
Lemma floor_unique : forall x n, (IZR n <= x < IZR n + 1)%R -> floorZ x = n.
Proof.
  intros x n H. pose proof (floor_bounds x) as B. assert (IZR (floorZ x) < IZR (n + 1))%R as A1 by (rewrite plus_IZR; lra). assert (IZR n < IZR (floorZ x + 1))%R as A2 by (rewrite plus_IZR; lra).
  apply lt_IZR in A1, A2. lia.
Qed.
Lemma elapsed_ok : forall t, in_range t -> elapsed t = Ok (floorZ (1000 * t)).
Proof.
  intros t H. unfold elapsed. pose proof (floor_bounds t) as B. unfold in_range in H.
  assert (-2147483648 <= floorZ t <= 2147483647) as Rg.
  { split; [apply Z.lt_succ_r; apply lt_IZR; rewrite succ_IZR; lra|apply Z.lt_succ_r; apply lt_IZR; rewrite succ_IZR; lra]. }
  unfold to_int. destruct (-2147483648 <=? floorZ t) eqn:E1; [|apply Z.leb_gt in E1; lia]. destruct (floorZ t <=? 2147483647) eqn:E2; [|apply Z.leb_gt in E2; lia]. cbn [andb rbind].
  set (x := (1000 * (t - IZR (floorZ t)))%R). pose proof (floor_bounds x) as Bx. assert (0 <= floorZ x <= 999) as Rx.
  { split; apply Z.lt_succ_r; apply lt_IZR; rewrite succ_IZR; unfold x in *; lra. }
  destruct (-2147483648 <=? floorZ x) eqn:E3; [|apply Z.leb_gt in E3; lia]. destruct (floorZ x <=? 2147483647) eqn:E4; [|apply Z.leb_gt in E4; lia]. cbn [andb rbind].
  f_equal. symmetry. apply floor_unique. rewrite plus_IZR, mult_IZR. unfold x in *. lra.
Qed.
Lemma elapsed_inv : forall t n, elapsed t = Ok n -> ms_of t n /\ in_range t.
Proof.
  intros t n H. assert (in_range t) as G.
  { unfold elapsed, to_int in H. destruct ((-2147483648 <=? floorZ t) && (floorZ t <=? 2147483647))%bool eqn:E; [|discriminate]. apply andb_true_iff in E. destruct E as [E1 E2]. apply Z.leb_le in E1, E2.
    pose proof (floor_bounds t). apply IZR_le in E1, E2. unfold in_range. lra. }
  split; [|exact G]. rewrite (elapsed_ok t G) in H. inversion H; subst. unfold ms_of. pose proof (floor_bounds (1000 * t)). lra.
Qed.
Lemma elapsed_out : forall t, ~ in_range t -> elapsed t = Undef.
Proof.
  intros t H. destruct (elapsed t) eqn:E; try reflexivity; exfalso.
  - apply H. apply (elapsed_inv t a E).
  - unfold elapsed, to_int in E. destruct (_ && _)%bool; [|discriminate]. cbn [rbind] in E. destruct (_ && _)%bool; discriminate.
  - unfold elapsed, to_int in E. destruct (_ && _)%bool; [|discriminate]. cbn [rbind] in E. destruct (_ && _)%bool; discriminate.
  - unfold elapsed, to_int in E. destruct (_ && _)%bool; [|discriminate]. cbn [rbind] in E. destruct (_ && _)%bool; discriminate.
Qed.
Lemma ms_unique : forall t n m, ms_of t n -> ms_of t m -> n = m.
Proof. intros t n m A B. rewrite <- (floor_unique _ _ A). apply floor_unique. exact B. Qed.
Lemma ms_exists : forall t, ms_of t (floorZ (1000 * t)).
Proof. intro t. apply floor_bounds. Qed.
Lemma ms_mono : forall t u n m, (t <= u)%R -> ms_of t n -> ms_of u m -> n <= m.
Proof. intros t u n m H A B. unfold ms_of in *. apply Z.lt_succ_r. apply lt_IZR. rewrite succ_IZR. lra. Qed.

(** ** zones *)
Lemma offset_in : forall l o t, In (offset_from o l t) (o :: map snd l).
Proof. induction l as [|[s o'] l IH]; intros o t; cbn [offset_from map snd]; [left; reflexivity|]. destruct (1000 * s <=? t); [right; apply IH|left; reflexivity]. Qed.
Lemma instants_spec : forall z l t, In t (instants z l) <-> reads z t l.
Proof.
  intros z l t. unfold instants, reads. rewrite filter_In, Z.eqb_eq. split; [intros [_ H]; exact H|]. intro H. split; [|exact H].
  apply in_map_iff. exists (offset_at z t). split; [lia|]. rewrite nodup_In. apply offset_in.
Qed.
Lemma instants_nodup : forall z l, NoDup (instants z l).
Proof.
  intros z l. unfold instants. apply NoDup_filter. apply Injective_map_NoDup; [intros a b H; lia|]. apply NoDup_nodup.
Qed.
Lemma to_sys_ok : forall z l t, to_sys z l = Ok t <-> reads z t l /\ forall u, reads z u l -> u = t.
Proof.
  intros z l t. unfold to_sys. pose proof (instants_spec z l) as I. pose proof (instants_nodup z l) as N. destruct (instants z l) as [|a [|b r]].
  - split; [discriminate|]. intros [H _]. apply I in H. destruct H.
  - split; [intro H; inversion H; subst; split; [apply I; left; reflexivity|intros u Hu; apply I in Hu; destruct Hu as [->|[]]; reflexivity]|].
    intros [H _]. apply I in H. destruct H as [->|[]]. reflexivity.
  - split; [discriminate|]. intros [_ H]. exfalso. assert (a = b) by (rewrite (H a), (H b); [reflexivity|apply I; right; left; reflexivity|apply I; left; reflexivity]). subst. inversion N; subst. apply H2. left; reflexivity.
Qed.
Lemma to_sys_throws : forall z l, to_sys z l = Throws <-> (forall t, ~ reads z t l) \/ exists t u, t <> u /\ reads z t l /\ reads z u l.
Proof.
  intros z l. unfold to_sys. pose proof (instants_spec z l) as I. pose proof (instants_nodup z l) as N. destruct (instants z l) as [|a [|b r]].
  - split; [|reflexivity]. intros _. left. intros t H. apply I in H. destruct H.
  - split; [discriminate|]. intros [H|(t & u & D & H1 & H2)]; exfalso.
    + apply (H a). apply I. left; reflexivity.
    + apply I in H1, H2. destruct H1 as [<-|[]], H2 as [<-|[]]. apply D; reflexivity.
  - split; [|reflexivity]. intros _. right. exists a, b. split; [intros ->; inversion N; subst; apply H1; left; reflexivity|]. split; apply I; [left|right; left]; reflexivity.
Qed.
Lemma utc_sys : forall l, to_sys utc l = Ok l.
Proof. intro l. apply to_sys_ok. unfold reads, utc, offset_at. cbn [z_first z_changes offset_from]. split; [lia|intros; lia]. Qed.
Lemma sys_cases : forall z l, (exists t, to_sys z l = Ok t) \/ to_sys z l = Throws.
Proof. intros z l. unfold to_sys. destruct (instants z l) as [|a [|b r]]; eauto. Qed.
