(** Lemmas: the bandwidth searches find their frequencies *)
From Coq Require Import Reals List Lra Lia Psatz Arith ZArith.
From Coquelicot Require Import Coquelicot.
From Verif Require FunProofs.
From Verif Require Import GeoModel DispModel WavModel WavSpec WavProofs WavProofs3 SeaModel SeaSpec SeaProofs SeaProofs2 SeaProofs3.
Import ListNotations.
Open Scope R_scope.

Lemma bisect_ext n ev ev' : (forall w, ev w = ev' w) -> forall a b thr, bisect n ev a b thr = bisect n ev' a b thr.
Proof. intros H. induction n as [|n IH]; intros a b thr; cbn; [reflexivity|]. rewrite !H, !IH. reflexivity. Qed.

(** ** Directions *)
Lemma dir_eval_nat tgamma n t m : gamma_factorial tgamma -> (1 <= n)%nat -> dir_eval (new_cos2s tgamma (INR n)) t m = Ok (cs_val n * cos (/ 2 * (t - m)) ^ (2 * n)).
Proof. intros G N. unfold new_cos2s, dir_eval. rewrite pow2s_nat by exact N. cbn [rbind]. rewrite EvalCs_nat by assumption. reflexivity. Qed.
Lemma pow_abs_le1 x n : Rabs x <= 1 -> Rabs (x ^ n) <= 1.
Proof. intros H. rewrite <- RPow_abs. rewrite <- (pow1 n). apply pow_incr. split; [apply Rabs_pos|exact H]. Qed.
Lemma abs_trig x : Rabs (cos x) <= 1 /\ Rabs (sin x) <= 1.
Proof. split; apply Rabs_le; [pose proof (COS_bound x)|pose proof (SIN_bound x)]; lra. Qed.
Lemma dir_bisect tgamma n m : gamma_factorial tgamma -> (1 <= n <= 100000)%nat ->
  exists k r, (forall j, (k <= j)%nat -> bisect j (fun t => dir_eval (new_cos2s tgamma (INR n)) t m) (m - PI) m (1 / 100) = Ok r) /\ m - PI < r < m /\ Rabs (cs_val n * cos (/ 2 * (r - m)) ^ (2 * n) - 1 / 100) < epsilon.
Proof.
  intros G N. pose proof PI_close as [P1 P2]. assert (IP : / PI <= 1) by (rewrite <- Rinv_1; apply Rinv_le_contravar; lra). assert (IP0 : 0 < / PI) by (apply Rinv_0_lt_compat; lra).
  assert (IP1 : 1 / 4 < / PI) by (replace (1 / 4) with (/ 4) by field; apply Rinv_lt_contravar; nra).
  pose proof (cs_bounds n ltac:(lia)) as [C1 C2].
  assert (NB : 1 <= INR n <= 100000). { split; [replace 1 with (INR 1) by reflexivity; apply le_INR; lia|]. replace 100000 with (INR 100000) by (rewrite INR_IZR_INZ; f_equal). apply le_INR. lia. }
  assert (C3 : cs_val n <= INR n / 3). { apply Rle_trans with (1 := C2). unfold Rdiv. apply Rmult_le_compat_l; [lra|]. apply Rinv_le_contravar; lra. }
  set (f := fun t => cs_val n * cos (/ 2 * (t - m)) ^ (2 * n)). set (f' := fun t => cs_val n * (INR (2 * n) * (/ 2 * - sin (/ 2 * (t - m))) * cos (/ 2 * (t - m)) ^ (2 * n - 1))).
  assert (D : forall t, is_derive f t (f' t)).
  { intros t. unfold f, f'. auto_derive; [exact I|]. replace (n + (n + 0))%nat with (2 * n)%nat by lia. replace (Nat.pred (2 * n)) with (2 * n - 1)%nat by lia. unfold Rminus. ring. }
  assert (I2 : INR (2 * n) = 2 * INR n) by (rewrite mult_INR; reflexivity).
  assert (B : forall t, Rabs (f' t) <= cs_val n * INR n).
  { intros t. unfold f'. rewrite I2. rewrite !Rabs_mult, Rabs_Ropp, (Rabs_pos_eq (cs_val n)), (Rabs_pos_eq 2), (Rabs_pos_eq (INR n)), (Rabs_pos_eq (/ 2)) by lra.
    destruct (abs_trig (/ 2 * (t - m))) as [A1 A2]. pose proof (pow_abs_le1 _ (2 * n - 1) A1) as A3. pose proof (Rabs_pos (sin (/ 2 * (t - m)))) as A4. pose proof (Rabs_pos (cos (/ 2 * (t - m)) ^ (2 * n - 1))) as A5.
    apply Rmult_le_compat_l; [lra|]. replace (2 * INR n * (/ 2 * Rabs (sin (/ 2 * (t - m)))) * Rabs (cos (/ 2 * (t - m)) ^ (2 * n - 1))) with (INR n * (Rabs (sin (/ 2 * (t - m))) * Rabs (cos (/ 2 * (t - m)) ^ (2 * n - 1)))) by field.
    rewrite <- (Rmult_1_r (INR n)) at 2. apply Rmult_le_compat_l; [lra|]. nra. }
  destruct (bisect_finds f (cs_val n * INR n) (m - PI) m (1 / 100)) as [k [r [H1 [H2 H3]]]].
  - rewrite eps_val. assert (cs_val n * INR n <= 100000 / 3 * 100000) by (apply Rmult_le_compat; lra). lra.
  - rewrite eps_val. lra.
  - apply (lipschitz_from f f'); [lra|intros; apply D|intros; apply B].
  - unfold f. replace (/ 2 * (m - PI - m)) with (- (PI / 2)) by field. replace (/ 2 * (m - m)) with 0 by ring. rewrite cos_neg, cos_PI2, cos_0, pow1, pow_i by lia. nra.
  - exists k, r. split; [|split; assumption]. intros j Hj. rewrite <- (H1 j Hj). apply bisect_ext. intros w. apply dir_eval_nat; [exact G|lia].
Qed.

(** ** Frequencies *)
Lemma exp_sq x : 0 <= x -> x * x / 4 <= exp x.
Proof. intros H. replace x with (x / 2 + x / 2) at 3 by field. rewrite exp_plus. assert (1 + x / 2 <= exp (x / 2)). { destruct (Req_dec x 0) as [->|N]; [replace (0 / 2) with 0 by field; rewrite exp_0; lra|]. left. apply exp_ineq1. lra. } nra. Qed.
Lemma exp_cube x : 0 <= x -> x * x * x / 27 <= exp x.
Proof.
  intros H. replace x with (x / 3 + (x / 3 + x / 3)) at 4 by field. rewrite !exp_plus. assert (1 + x / 3 <= exp (x / 3)). { destruct (Req_dec x 0) as [->|N]; [replace (0 / 3) with 0 by field; rewrite exp_0; lra|]. left. apply exp_ineq1. lra. }
  set (e := exp (x / 3)) in *. assert (x / 3 * (x / 3) <= e * e) by nra. assert (x / 3 * (x / 3) * (x / 3) <= e * e * e) by (apply Rmult_le_compat; nra). lra. Qed.
Lemma exp_scaled x : 0 <= x -> exp (- x) <= 1 /\ x * x * exp (- x) <= 4 /\ x * x * x * exp (- x) <= 27.
Proof.
  intros H. rewrite exp_Ropp. pose proof (exp_pos x) as P. pose proof (exp_sq x H) as A. pose proof (exp_cube x H) as B.
  assert (O : 1 <= exp x) by (rewrite <- exp_0; destruct (Req_dec x 0) as [->|N]; [lra|left; apply exp_increasing; lra]).
  spl.
  - rewrite <- Rinv_1. apply Rinv_le_contravar; lra.
  - apply Rmult_le_reg_r with (exp x); [exact P|]. rewrite Rmult_assoc, Rinv_l by lra. lra.
  - apply Rmult_le_reg_r with (exp x); [exact P|]. rewrite Rmult_assoc, Rinv_l by lra. lra.
Qed.
Definition dens' (E c w : R) : R := 4 * E * (c / (w * w * w * w)) * (4 * (c / (w * w * w * w)) - 5) / (w * w) * exp (- c / (w * w * w * w)).
Lemma dens_D E c w : w <> 0 -> is_derive (dens E c) w (dens' E c w).
Proof. intros W. unfold dens, dens'. auto_derive; [repeat split; repeat (apply Rmult_integral_contrapositive_currified; auto)|]. unfold Rdiv. field. exact W. Qed.
Lemma fourth c : 0 < c -> exists q, 0 < q /\ q * q * q * q = c.
Proof. intros H. exists (sqrt (sqrt c)). assert (0 < sqrt c) by (apply sqrt_lt_R0; auto). split; [apply sqrt_lt_R0; auto|]. rewrite sqrt_sqrt by lra. rewrite Rmult_assoc, sqrt_sqrt, sqrt_sqrt by lra. reflexivity. Qed.
Lemma fourth_le a b : 0 < a -> 0 < b -> a * a * a * a <= b * b * b * b -> a <= b.
Proof. intros A B H. apply Rnot_lt_le. intros L. assert (b * b < a * a) by nra. assert (b * b * b < a * a * a) by (assert (b * b * b < a * a * b) by nra; nra). nra. Qed.
Lemma dens_bounds E c wp w : 0 <= E -> 0 < wp -> wp * wp * wp * wp <= c -> 0 < w -> 0 <= dens E c w <= 20 * E / wp /\ Rabs (dens' E c w) <= 548 * E / (wp * wp).
Proof.
  intros HE WP HC W. assert (C0 : 0 < c) by (apply Rlt_le_trans with (2 := HC); repeat apply Rmult_lt_0_compat; auto). destruct (fourth c C0) as [q [Q0 Q4]].
  assert (QW : wp <= q) by (apply fourth_le; lra). assert (exists y, y = q / w) as [y Hy] by eauto. assert (Y : 0 < y) by (rewrite Hy; apply Rdiv_lt_0_compat; auto). set (x := y * y * y * y).
  assert (X : c / (w * w * w * w) = x). { unfold x. rewrite Hy, <- Q4. field. lra. } assert (X0 : 0 < x) by (unfold x; repeat apply Rmult_lt_0_compat; auto).
  assert (XN : - c / (w * w * w * w) = - x) by (rewrite <- X; field; lra).
  destruct (exp_scaled x ltac:(lra)) as [E0 [E2 E3]]. pose proof (exp_pos (- x)) as EP. set (e := exp (- x)) in *.
  assert (Y5 : y * y * y * y * y * e <= 5).
  { assert (y * y * y * y * y <= 1 + x * x). { unfold x. destruct (Rle_lt_dec y 1). - assert (y * y <= 1) by nra. assert (y * y * y <= 1) by nra. assert (y * y * y * y <= 1) by nra. assert (y * y * y * y * y <= 1) by nra. assert (0 <= y * y * y * y * (y * y * y * y)) by nra. lra.
      - assert (1 < y * y) by nra. assert (1 < y * y * y) by nra. assert (0 < y * y * y * y * y) by (repeat apply Rmult_lt_0_compat; lra). replace (y * y * y * y * (y * y * y * y)) with (y * y * y * y * y * (y * y * y)) by ring. nra. }
    apply Rle_trans with ((1 + x * x) * e); [apply Rmult_le_compat_r; lra|]. rewrite Rmult_plus_distr_r. lra. }
  assert (Y6 : y * y * y * y * y * y * e <= 5).
  { assert (y * y * y * y * y * y <= 1 + x * x). { unfold x. assert (exists z, z = y * y) as [z Hz] by eauto. assert (0 < z) by (rewrite Hz; nra). replace (y * y * y * y * y * y) with (z * z * z) by (rewrite Hz; ring). replace (y * y * y * y * (y * y * y * y)) with (z * z * z * z) by (rewrite Hz; ring). destruct (Rle_lt_dec z 1).
      - assert (z * z <= 1) by nra. assert (z * z * z <= 1) by nra. assert (0 <= z * z * z * z) by (repeat apply Rmult_le_pos; lra). lra.
      - assert (0 < z * z * z) by (repeat apply Rmult_lt_0_compat; lra). nra. }
    apply Rle_trans with ((1 + x * x) * e); [apply Rmult_le_compat_r; lra|]. rewrite Rmult_plus_distr_r. lra. }
  assert (Y10 : y * y * x * x * e <= 28).
  { assert (y * y * x * x <= 1 + x * x * x). { assert (exists z, z = y * y) as [z Hz] by eauto. assert (0 < z) by (rewrite Hz; nra). rewrite <- Hz; replace x with (z * z) by (unfold x; rewrite Hz; ring). destruct (Rle_lt_dec z 1).
      - assert (z * z <= 1) by nra. assert (z * (z * z) * (z * z) <= 1). { assert (0 < z * z) by nra. assert (z * (z * z) <= 1) by nra. nra. } assert (0 <= z * z * (z * z) * (z * z)) by (repeat apply Rmult_le_pos; lra). lra.
      - assert (0 < z * (z * z) * (z * z)) by (repeat apply Rmult_lt_0_compat; lra). replace (z * z * (z * z) * (z * z)) with (z * (z * (z * z) * (z * z))) by ring. nra. }
    apply Rle_trans with ((1 + x * x * x) * e); [apply Rmult_le_compat_r; lra|]. rewrite Rmult_plus_distr_r. lra. }
  assert (IQ1 : / q <= / wp) by (apply Rinv_le_contravar; lra). assert (IQ0 : 0 < / q) by (apply Rinv_0_lt_compat; lra).
  assert (IQ2 : / q * / q <= / wp * / wp) by (apply Rmult_le_compat; lra).
  split.
  - assert (DV : dens E c w = 4 * E * / q * (y * y * y * y * y * e)). { unfold dens. rewrite XN. fold e. rewrite Hy, <- Q4. field. split; lra. }
    rewrite DV. assert (0 < y * y * y * y * y * e) by (repeat apply Rmult_lt_0_compat; auto). split; [repeat apply Rmult_le_pos; lra|].
    apply Rle_trans with (4 * E * / q * 5); [apply Rmult_le_compat_l; [repeat apply Rmult_le_pos; lra|lra]|]. replace (20 * E / wp) with (4 * E * 5 * / wp) by (unfold Rdiv; ring). replace (4 * E * / q * 5) with (4 * E * 5 * / q) by ring. apply Rmult_le_compat_l; lra.
  - assert (DV : dens' E c w = 4 * E * (/ q * / q) * (4 * (y * y * x * x * e) - 5 * (y * y * y * y * y * y * e))). { unfold dens'. rewrite XN, X. fold e. unfold x. rewrite Hy. field. split; lra. }
    rewrite DV, Rabs_mult, (Rabs_pos_eq (4 * E * (/ q * / q))) by (repeat apply Rmult_le_pos; lra).
    assert (0 < y * y * y * y * y * y * e) by (repeat apply Rmult_lt_0_compat; auto). assert (0 < y * y * x * x * e) by (repeat apply Rmult_lt_0_compat; auto).
    apply Rle_trans with (4 * E * (/ q * / q) * 137).
    + apply Rmult_le_compat_l; [repeat apply Rmult_le_pos; lra|]. apply Rabs_le. lra.
    + replace (548 * E / (wp * wp)) with (4 * E * 137 * (/ wp * / wp)) by (field; lra). replace (4 * E * (/ q * / q) * 137) with (4 * E * 137 * (/ q * / q)) by ring. apply Rmult_le_compat_l; lra.
Qed.
Lemma bisect_ext_on n ev ev' : forall a b thr, a <= b -> (forall w, a <= w <= b -> ev w = ev' w) -> bisect n ev a b thr = bisect n ev' a b thr.
Proof.
  induction n as [|n IH]; intros a b thr AB H; cbn; [reflexivity|]. rewrite (H ((a + b) / 2)), (H b) by lra.
  rewrite (IH ((a + b) / 2) b thr), (IH a ((a + b) / 2) thr); try reflexivity; try lra; intros; apply H; lra.
Qed.
Lemma prod_slope E c wp H H1 (h h' : R -> R) w : 0 <= E -> 0 < wp -> wp * wp * wp * wp <= c -> 0 < w -> is_derive h w (h' w) -> Rabs (h w) <= H -> Rabs (h' w) <= H1 ->
  is_derive (fun w => dens E c w * h w) w (dens' E c w * h w + dens E c w * h' w) /\ Rabs (dens' E c w * h w + dens E c w * h' w) <= 548 * E / (wp * wp) * H + 20 * E / wp * H1.
Proof.
  intros HE WP HC W D B0 B1. destruct (dens_bounds E c wp w HE WP HC W) as [[P1 P2] P3]. split.
  - apply (is_derive_mult (dens E c) h w (dens' E c w) (h' w)); [apply dens_D; lra|exact D|]. intros. apply Rmult_comm.
  - apply Rle_trans with (1 := Rabs_triang _ _). rewrite !Rabs_mult, (Rabs_pos_eq (dens E c w)) by lra. apply Rplus_le_compat; apply Rmult_le_compat; try apply Rabs_pos; lra.
Qed.
(** the JONSWAP factor on one side of the peak, s = 1 / sigma^2 *)
Definition hj (K lg wp s w : R) : R := K * exp (lg * exp (s * (- ((w - wp) * (w - wp)) / (2 * (wp * wp))))).
Definition hj' (K lg wp s w : R) : R := hj K lg wp s w * (lg * (exp (s * (- ((w - wp) * (w - wp)) / (2 * (wp * wp)))) * (s * (- (w - wp) / (wp * wp))))).
Lemma hj_D K lg wp s w : 0 < wp -> is_derive (hj K lg wp s) w (hj' K lg wp s w).
Proof. intros W. unfold hj', hj. auto_derive; [exact I|]. unfold Rminus, Rdiv. field. lra. Qed.
Lemma hj_bounds K lg wp s w : 0 <= K <= 1 -> 0 <= lg -> exp lg <= 10 -> 0 < wp -> 2 <= s -> K <= hj K lg wp s w <= 10 * K /\ Rabs (hj' K lg wp s w) <= 10 * lg * (s / 2) / wp.
Proof.
  intros HK HL HG WP HS. set (z := (w - wp) / wp). assert (U : s * (- ((w - wp) * (w - wp)) / (2 * (wp * wp))) = - (s / 2 * (z * z))) by (unfold z; field; lra).
  assert (ZZ : 0 <= z * z) by nra. assert (N : 0 <= s / 2 * (z * z)) by nra. destruct (exp_scaled _ N) as [E0 _]. pose proof (exp_pos (- (s / 2 * (z * z)))) as EP.
  assert (B : K <= hj K lg wp s w <= 10 * K).
  { unfold hj. rewrite U. set (e := exp (- (s / 2 * (z * z)))) in *. assert (0 <= lg * e <= lg) by nra.
    assert (1 <= exp (lg * e)). { rewrite <- exp_0 at 1. apply Rnot_lt_le. intros F. apply exp_lt_inv in F. lra. }
    assert (exp (lg * e) <= exp lg). { apply Rnot_lt_le. intros F. apply exp_lt_inv in F. lra. } nra. }
  split; [exact B|]. unfold hj'. rewrite U. replace (- (w - wp) / (wp * wp)) with (- z / wp) by (unfold z; field; lra).
  assert (ZE : Rabs z * exp (- (s / 2 * (z * z))) <= / 2).
  { rewrite exp_Ropp. assert (G : 2 * Rabs z <= exp (s / 2 * (z * z))). { apply Rle_trans with (1 + s / 2 * (z * z)).
      - assert (Rabs z * Rabs z = z * z) by (rewrite <- Rabs_mult; apply Rabs_pos_eq; exact ZZ). pose proof (Rabs_pos z). assert (0 <= (1 - Rabs z) * (1 - Rabs z)) by apply Rle_0_sqr. nra.
      - destruct (Req_dec (s / 2 * (z * z)) 0) as [->|NZ]; [rewrite exp_0; lra|]. left. apply exp_ineq1. lra. }
    pose proof (exp_pos (s / 2 * (z * z))). apply Rmult_le_reg_r with (exp (s / 2 * (z * z))); [assumption|]. rewrite Rmult_assoc, Rinv_l by lra. lra. }
  assert (HB : 0 <= hj K lg wp s w <= 10) by lra. assert (IW : 0 < / wp) by (apply Rinv_0_lt_compat; lra).
  rewrite !Rabs_mult. rewrite (Rabs_pos_eq (hj K lg wp s w)), (Rabs_pos_eq lg), (Rabs_pos_eq (exp _)), (Rabs_pos_eq s) by lra.
  unfold Rdiv at 2. rewrite Rabs_mult, Rabs_Ropp, (Rabs_pos_eq (/ wp)) by lra. set (e := exp (- (s / 2 * (z * z)))) in *. pose proof (Rabs_pos z) as AZ. set (az := Rabs z) in *.
  replace (hj K lg wp s w * (lg * (e * (s * (az * / wp))))) with (hj K lg wp s w * (lg * (s * (az * e) * / wp))) by ring.
  replace (10 * lg * (s / 2) / wp) with (10 * (lg * (s * / 2 * / wp))) by (field; lra).
  assert (0 <= az * e) by (apply Rmult_le_pos; lra).
  apply Rmult_le_compat; [lra| |lra|]. { repeat apply Rmult_le_pos; lra. }
  apply Rmult_le_compat_l; [lra|]. apply Rmult_le_compat_r; [lra|]. apply Rmult_le_compat_l; lra.
Qed.
Lemma jonswap_as hs wp gamma w : 0 < gamma -> 0 < w -> 0 < wp ->
  jonswap_eval hs wp gamma w = dens (hs * hs / 16) (5 / 4 * (wp * wp * wp * wp)) w * hj (1 - 287 / 1000 * ln gamma) (ln gamma) wp (if Rle_dec w wp then SIGMA2_1_left else SIGMA2_1_right) w.
Proof.
  intros G W WP. unfold jonswap_eval. cbv zeta. destruct (Rlt_dec 0 w); [|contradiction]. unfold hj, dens.
  assert (P : forall s, Rpower gamma (Rpower (exp (- ((w - wp) * (w - wp)) / (2 * (wp * wp)))) s) = exp (ln gamma * exp (s * (- ((w - wp) * (w - wp)) / (2 * (wp * wp)))))).
  { intros s. unfold Rpower. rewrite ln_exp. rewrite (Rmult_comm (exp _) (ln gamma)). reflexivity. }
  assert (X : exp (- (125 / 100) * (wp * wp * (wp * wp)) * / (w * w * w * w)) = exp (- (5 / 4 * (wp * wp * wp * wp)) / (w * w * w * w))) by (f_equal; field; lra).
  rewrite X. destruct (Rle_dec w wp); rewrite P; field; lra.
Qed.
Lemma pm_as hs wp w : 0 < wp -> w <> 0 -> pm_eval hs wp w = dens (hs * hs / 16) ((1408 / 1000 * wp) * (1408 / 1000 * wp) * (1408 / 1000 * wp) * (1408 / 1000 * wp) / PI) w.
Proof.
  intros WP W. unfold pm_eval, dens. cbv zeta. pose proof PI_RGT_0. replace (2 * PI / (2 * PI / wp / (1408 / 1000))) with (1408 / 1000 * wp) by (field; split; lra).
  set (q := 1408 / 1000 * wp). replace (- (q * q * q * q / (PI * (w * w * w * w)))) with (- (q * q * q * q / PI) / (w * w * w * w)) by (field; split; lra). field. split; lra.
Qed.
Lemma sigma_bounds : 2 <= SIGMA2_1_left <= 206 /\ 2 <= SIGMA2_1_right <= 206.
Proof. unfold SIGMA2_1_left, SIGMA2_1_right. lra. Qed.
Lemma ln_ten g : 1 <= g <= 10 -> 0 <= ln g <= 3 /\ exp (ln g) <= 10.
Proof.
  intros H. rewrite exp_ln by lra. split; [|lra]. split; [rewrite <- ln_1; destruct (Req_dec g 1) as [->|N]; [lra|left; apply ln_increasing; lra]|].
  apply Rnot_lt_le. intros F. apply exp_increasing in F. rewrite exp_ln in F by lra.
  assert (E : 3 / 2 <= exp (1 / 2)) by (pose proof (exp_ineq1 (1 / 2)); lra). assert (exp 3 = exp (1 / 2) * exp (1 / 2) * exp (1 / 2) * exp (1 / 2) * exp (1 / 2) * exp (1 / 2)) as X by (rewrite <- !exp_plus; f_equal; lra).
  set (e := exp (1 / 2)) in *. assert (9 / 4 <= e * e) by nra. assert (81 / 16 <= e * e * e * e) by nra. assert (11 <= e * e * e * e * e * e). { replace (e * e * e * e * e * e) with (e * e * e * e * (e * e)) by ring. nra. } lra.
Qed.
(** signs at the ends of the two brackets, for c between wp^4 and 1.3 wp^4 *)
Lemma dens_low E c : 0 < E -> 1 / 50000000 <= c -> 10 * dens E c (1 / 10000) < E / 100.
Proof.
  intros HE HC. unfold dens. set (x := c / (1 / 10000 * (1 / 10000) * (1 / 10000) * (1 / 10000))). assert (X : x = c * 10000000000000000) by (unfold x; field).
  replace (- c / (1 / 10000 * (1 / 10000) * (1 / 10000) * (1 / 10000))) with (- x) by (unfold x; field).
  replace (4 * c / (1 / 10000 * (1 / 10000) * (1 / 10000) * (1 / 10000) * (1 / 10000))) with (40000 * x) by (rewrite X; field).
  assert (XP : 200000000 <= x) by lra. destruct (exp_scaled x ltac:(lra)) as [_ [E2 _]]. pose proof (exp_pos (- x)). set (e := exp (- x)) in *.
  assert (x * e <= 4 / 200000000). { apply Rmult_le_reg_l with x; [lra|]. assert (0 < x * e) by nra. apply Rle_trans with 4; [lra|]. apply Rle_trans with (200000000 * (4 / 200000000)); [lra|]. apply Rmult_le_compat_r; lra. }
  replace (10 * (E * (40000 * x) * e)) with (E * (400000 * (x * e))) by ring. apply Rlt_le_trans with (E * (1 / 100)); [|lra]. apply Rmult_lt_compat_l; lra.
Qed.
Lemma dens_high E c : 0 < E -> 0 <= c < 25 -> 10 * dens E c 10 < E / 100.
Proof.
  intros HE HC. unfold dens. assert (X0 : exp (- c / (10 * 10 * 10 * 10)) <= 1). { replace (- c / (10 * 10 * 10 * 10)) with (- (c / 10000)) by field. apply exp_scaled. lra. }
  pose proof (exp_pos (- c / (10 * 10 * 10 * 10))). set (e := exp _) in *. replace (10 * (E * (4 * c / (10 * 10 * 10 * 10 * 10)) * e)) with (E * (4 * c / 10000 * e)) by field.
  apply Rlt_le_trans with (E * (1 / 100)); [|lra]. apply Rmult_lt_compat_l; nra.
Qed.
Lemma dens_mid E c wp : 0 < E -> 0 < wp <= 21 / 10 -> wp * wp * wp * wp <= c <= 13 / 10 * (wp * wp * wp * wp) -> E / 100 < 1 / 8 * dens E c wp.
Proof.
  intros HE HW HC. unfold dens. assert (W4 : 0 < wp * wp * wp * wp) by (repeat apply Rmult_lt_0_compat; lra). set (x := c / (wp * wp * wp * wp)).
  assert (XC : c = x * (wp * wp * wp * wp)) by (unfold x; field; lra). assert (X : 1 <= x <= 13 / 10) by (split; apply Rmult_le_reg_r with (wp * wp * wp * wp); lra).
  replace (- c / (wp * wp * wp * wp)) with (- x) by (unfold x; field; lra). replace (4 * c / (wp * wp * wp * wp * wp)) with (4 * x / wp) by (unfold x; field; lra).
  assert (EX : / 9 <= exp (- x)). { rewrite exp_Ropp. apply Rinv_le_contravar; [apply exp_pos|]. apply Rle_trans with (exp 2). - left. apply exp_increasing. lra. - replace 2 with (1 + 1) by ring. rewrite exp_plus. pose proof exp_le_3. pose proof (exp_pos 1). nra. }
  assert (IW : 10 / 21 <= / wp) by (replace (10 / 21) with (/ (21 / 10)) by field; apply Rinv_le_contravar; lra).
  replace (1 / 8 * (E * (4 * x / wp) * exp (- x))) with (E * (1 / 2 * x * / wp * exp (- x))) by (field; lra). apply Rle_lt_trans with (E * (1 / 100)); [lra|]. apply Rmult_lt_compat_l; [exact HE|].
  assert (10 / 21 <= x * / wp) by nra. assert (10 / 21 * / 9 <= x * / wp * exp (- x)) by (apply Rmult_le_compat; lra). lra.
Qed.
Lemma density_search (E c wp : R) (h h' : R -> R) (f : R -> R) a b (thr := E / 100) :
  0 < E -> 0 < wp -> wp * wp * wp * wp <= c -> 0 < a -> 1 / 1000 < b - a -> (forall w, a <= w <= b -> f w = dens E c w * h w) ->
  (forall w, is_derive h w (h' w)) -> (forall w, Rabs (h w) <= 10) -> (forall w, Rabs (h' w) <= 3090 / wp) -> E / (wp * wp) < 100000 -> (f a - thr) * (f b - thr) < 0 ->
  exists k r, (forall j, (k <= j)%nat -> bisect j (fun w => Ok (f w)) a b thr = Ok r) /\ a < r < b /\ Rabs (f r - thr) < epsilon.
Proof.
  intros HE WP HC A AB F D B0 B1 EW SG. set (g := fun w => dens E c w * h w).
  destruct (bisect_finds g (548 * E / (wp * wp) * 10 + 20 * E / wp * (3090 / wp)) a b thr) as [k [r [H1 [H2 H3]]]].
  - replace (548 * E / (wp * wp) * 10 + 20 * E / wp * (3090 / wp)) with (67280 * (E / (wp * wp))) by (field; lra). rewrite eps_val. lra.
  - rewrite eps_val. lra.
  - apply (lipschitz_from g (fun w => dens' E c w * h w + dens E c w * h' w)); [lra| |]; intros w Hw; apply (prod_slope E c wp 10 (3090 / wp) h h' w); auto; lra.
  - unfold g. rewrite <- !F by lra. exact SG.
  - exists k, r. split; [|split; [exact H2|]].
    + intros j Hj. rewrite <- (H1 j Hj). apply bisect_ext_on; [lra|]. intros w Hw. f_equal. apply F. exact Hw.
    + rewrite F by lra. exact H3.
Qed.
