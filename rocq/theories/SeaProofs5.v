(** Lemmas: frequency bandwidths, energies, the search in binary64 *)
From Coq Require Import Reals List Lra Lia Psatz Arith ZArith Floats.SpecFloat.
From Coquelicot Require Import Coquelicot.
From Verif Require FunProofs.
From Verif Require Import GeoModel DispModel WavModel WavSpec WavProofs WavProofs3 SeaModel SeaSpec SeaProofs SeaProofs2 SeaProofs3 SeaProofs4.
Import ListNotations.
Open Scope R_scope.

Lemma wp_bounds tp : 3 <= tp <= 180 -> 34 / 1000 < 2 * PI / tp < 2095 / 1000.
Proof.
  intros H. pose proof PI_close as [P1 P2]. split.
  - apply Rmult_lt_reg_r with tp; [lra|]. unfold Rdiv at 2. rewrite Rmult_assoc, Rinv_l by lra. nra.
  - apply Rmult_lt_reg_r with tp; [lra|]. unfold Rdiv at 1. rewrite Rmult_assoc, Rinv_l by lra. nra.
Qed.
Lemma wp_four wp : 34 / 1000 < wp < 2095 / 1000 -> 1 / 800000 < wp * wp * wp * wp < 193 / 10.
Proof.
  intros H. assert (A : 1156 / 1000000 < wp * wp < 439 / 100) by nra. set (z := wp * wp) in *. replace (wp * wp * wp * wp) with (z * z) by (unfold z; ring). nra.
Qed.
Lemma both_searches (f h1 h1' h2 h2' : R -> R) hs wp c : 0 < hs <= 30 -> 34 / 1000 < wp < 2095 / 1000 -> wp * wp * wp * wp <= c <= 127 / 100 * (wp * wp * wp * wp) ->
  (forall w, 1 / 10000 <= w <= wp -> f w = dens (hs * hs / 16) c w * h1 w) -> (forall w, wp <= w <= 10 -> f w = dens (hs * hs / 16) c w * h2 w) ->
  (forall w, is_derive h1 w (h1' w)) -> (forall w, is_derive h2 w (h2' w)) -> (forall w, 1 / 8 <= h1 w <= 10) -> (forall w, 1 / 8 <= h2 w <= 10) ->
  (forall w, Rabs (h1' w) <= 3090 / wp) -> (forall w, Rabs (h2' w) <= 3090 / wp) ->
  exists k wmin wmax, (forall j, (k <= j)%nat -> bisect j (fun w => Ok (f w)) (1 / 10000) wp (hs * hs / 16 * (1 / 100)) = Ok wmin /\ bisect j (fun w => Ok (f w)) wp 10 (hs * hs / 16 * (1 / 100)) = Ok wmax) /\
    1 / 10000 < wmin < wp /\ wp < wmax < 10 /\ Rabs (f wmin - hs * hs / 16 / 100) < epsilon /\ Rabs (f wmax - hs * hs / 16 / 100) < epsilon.
Proof.
  intros HS WP HC F1 F2 D1 D2 B1 B2 S1 S2. set (E := hs * hs / 16) in *. assert (HE : 0 < E) by (unfold E; nra). assert (HE2 : E <= 5625 / 100) by (unfold E; nra).
  pose proof (wp_four wp WP) as W4. replace (E * (1 / 100)) with (E / 100) by field.
  assert (W0 : 0 < wp) by lra. assert (EW : E / (wp * wp) < 100000). { apply Rmult_lt_reg_r with (wp * wp); [nra|]. replace (E / (wp * wp) * (wp * wp)) with E by (field; lra). nra. }
  assert (LOW : f (1 / 10000) < E / 100). { rewrite F1 by lra. apply Rle_lt_trans with (10 * dens E c (1 / 10000)); [|apply dens_low; [exact HE|lra]]. destruct (dens_bounds E c wp (1 / 10000) ltac:(lra) W0 ltac:(lra) ltac:(lra)) as [[? _] _]. specialize (B1 (1 / 10000)). nra. }
  assert (HIGH : f 10 < E / 100). { rewrite F2 by lra. apply Rle_lt_trans with (10 * dens E c 10); [|apply dens_high; [exact HE|lra]]. destruct (dens_bounds E c wp 10 ltac:(lra) W0 ltac:(lra) ltac:(lra)) as [[? _] _]. specialize (B2 10). nra. }
  assert (MID : E / 100 < f wp). { rewrite F1 by lra. apply Rlt_le_trans with (1 / 8 * dens E c wp); [apply dens_mid; lra|]. destruct (dens_bounds E c wp wp ltac:(lra) W0 ltac:(lra) W0) as [[? _] _]. specialize (B1 wp). nra. }
  assert (A1 : forall w, Rabs (h1 w) <= 10) by (intros w; specialize (B1 w); rewrite Rabs_pos_eq; lra). assert (A2 : forall w, Rabs (h2 w) <= 10) by (intros w; specialize (B2 w); rewrite Rabs_pos_eq; lra).
  destruct (density_search E c wp h1 h1' f (1 / 10000) wp) as [k1 [r1 [P1 [P2 P3]]]]; auto; try lra. { nra. }
  destruct (density_search E c wp h2 h2' f wp 10) as [k2 [r2 [Q1 [Q2 Q3]]]]; auto; try lra. { nra. }
  exists (k1 + k2)%nat, r1, r2. spl; try exact P3; try exact Q3; try lra. intros j Hj. split; [apply P1|apply Q1]; lia.
Qed.
Lemma jonswap_bandwidth hs tp gamma : 0 < hs <= 30 -> 3 <= tp <= 180 -> 1 <= gamma <= 10 ->
  exists k wmin wmax, (forall j, (k <= j)%nat -> GetFrequencyBandwidth j (new_jonswap hs tp gamma) = Ok (wmin, wmax)) /\ 1 / 10000 < wmin < 2 * PI / tp /\ 2 * PI / tp < wmax < 10 /\
    Rabs (Eval (new_jonswap hs tp gamma) wmin - hs * hs / 16 / 100) < epsilon /\ Rabs (Eval (new_jonswap hs tp gamma) wmax - hs * hs / 16 / 100) < epsilon.
Proof.
  intros HS TP HG. pose proof (wp_bounds tp TP) as WP. set (wp := 2 * PI / tp) in *. destruct (ln_ten gamma HG) as [L1 L2]. set (K := 1 - 287 / 1000 * ln gamma).
  assert (HK : 1 / 8 <= K <= 1) by (unfold K; lra). pose proof sigma_bounds as [SL SR]. pose proof (wp_four wp WP) as W4.
  assert (W0 : 0 < wp) by lra.
  assert (HB : forall s w, 2 <= s <= 206 -> 1 / 8 <= hj K (ln gamma) wp s w <= 10 /\ Rabs (hj' K (ln gamma) wp s w) <= 3090 / wp).
  { intros s w Hs. destruct (hj_bounds K (ln gamma) wp s w ltac:(lra) ltac:(lra) L2 W0 ltac:(lra)) as [P Q]. split; [lra|]. apply Rle_trans with (1 := Q). apply Rmult_le_compat_r; [left; apply Rinv_0_lt_compat; lra|]. nra. }
  destruct (both_searches (Eval (new_jonswap hs tp gamma)) (hj K (ln gamma) wp SIGMA2_1_left) (hj' K (ln gamma) wp SIGMA2_1_left) (hj K (ln gamma) wp SIGMA2_1_right) (hj' K (ln gamma) wp SIGMA2_1_right) hs wp (5 / 4 * (wp * wp * wp * wp))) as [k [a [b [P Q]]]].
  all: try lra.
  - intros w Hw. unfold Eval, new_jonswap. cbn [sp_kind sp_hs sp_wp]. fold wp. rewrite jonswap_as by lra. fold K. destruct (Rle_dec w wp); [reflexivity|lra].
  - intros w Hw. unfold Eval, new_jonswap. cbn [sp_kind sp_hs sp_wp]. fold wp. rewrite jonswap_as by lra. fold K. destruct (Rle_dec w wp) as [L|L]; [|reflexivity]. assert (w = wp) by lra. subst w.
    unfold hj. rewrite Rminus_eq_0. replace (- (0 * 0) / (2 * (wp * wp))) with 0 by (field; lra). rewrite !Rmult_0_r. reflexivity.
  - intros; apply hj_D; lra.
  - intros; apply hj_D; lra.
  - intros. apply (HB _ _ SL).
  - intros. apply (HB _ _ SR).
  - intros. apply (HB _ _ SL).
  - intros. apply (HB _ _ SR).
  - exists k, a, b. split; [|exact Q]. intros j Hj. destruct (P j Hj) as [P1 P2]. unfold GetFrequencyBandwidth. cbn [sp_hs sp_wp new_jonswap]. fold wp. change (new_jonswap hs tp gamma) with (SP (JONSWAP gamma) hs wp None) in P1, P2 |- *. cbn [sp_hs sp_wp]. rewrite P1. cbn [rbind]. rewrite P2. reflexivity.
Qed.
Lemma pm_c wp : 34 / 1000 < wp -> wp * wp * wp * wp <= (1408 / 1000 * wp) * (1408 / 1000 * wp) * (1408 / 1000 * wp) * (1408 / 1000 * wp) / PI <= 127 / 100 * (wp * wp * wp * wp).
Proof.
  intros H. pose proof PI_close as [P1 P2]. set (z := wp * wp * wp * wp). assert (0 < z) by (unfold z; repeat apply Rmult_lt_0_compat; lra).
  replace ((1408 / 1000 * wp) * (1408 / 1000 * wp) * (1408 / 1000 * wp) * (1408 / 1000 * wp) / PI) with ((1408 / 1000 * (1408 / 1000) * (1408 / 1000) * (1408 / 1000)) / PI * z) by (unfold z; field; lra).
  set (k := 1408 / 1000 * (1408 / 1000) * (1408 / 1000) * (1408 / 1000)). assert (KV : 3930 / 1000 < k < 3931 / 1000) by (unfold k; lra).
  assert (KP : k = k / PI * PI) by (field; lra). assert (1 <= k / PI <= 127 / 100) by (split; apply Rmult_le_reg_r with PI; lra).
  nra.
Qed.
Lemma pm_bandwidth hs tp : 0 < hs <= 30 -> 3 <= tp <= 180 ->
  exists k wmin wmax, (forall j, (k <= j)%nat -> GetFrequencyBandwidth j (new_pm hs tp) = Ok (wmin, wmax)) /\ 1 / 10000 < wmin < 2 * PI / tp /\ 2 * PI / tp < wmax < 10 /\
    Rabs (Eval (new_pm hs tp) wmin - hs * hs / 16 / 100) < epsilon /\ Rabs (Eval (new_pm hs tp) wmax - hs * hs / 16 / 100) < epsilon.
Proof.
  intros HS TP. pose proof (wp_bounds tp TP) as WP. set (wp := 2 * PI / tp) in *. pose proof (pm_c wp ltac:(lra)) as HC. set (c := _ / PI) in HC.
  assert (EV : forall w, 0 < w -> Eval (new_pm hs tp) w = dens (hs * hs / 16) c w * 1). { intros w Hw. unfold Eval, new_pm. cbn [sp_kind sp_hs sp_wp]. fold wp. rewrite pm_as by lra. fold c. ring. }
  assert (D : forall w : R, is_derive (fun _ => 1) w 0) by (intros; apply (is_derive_const (V := R_NormedModule))).
  assert (Z : Rabs 0 <= 3090 / wp). { rewrite Rabs_R0. apply Rdiv_le_0_compat; lra. }
  destruct (both_searches (Eval (new_pm hs tp)) (fun _ => 1) (fun _ => 0) (fun _ => 1) (fun _ => 0) hs wp c) as [k [a [b [P Q]]]]; auto; try lra.
  - intros w Hw. apply EV. lra.
  - intros w Hw. apply EV. lra.
  - intros; lra.
  - intros; lra.
  - exists k, a, b. split; [|exact Q]. intros j Hj. destruct (P j Hj) as [P1 P2]. unfold GetFrequencyBandwidth. change (new_pm hs tp) with (SP PIERSON_MOSKOWITZ hs wp None) in P1, P2 |- *. cbn [sp_hs sp_wp]. rewrite P1. cbn [rbind]. rewrite P2. reflexivity.
Qed.

(** ** binary64 *)
Lemma turns_add ev thr n : forall m p, turns (n + m) ev thr p = match turns n ev thr p with Some p' => turns m ev thr p' | None => None end.
Proof. induction n as [|n IH]; intros m p; cbn; [reflexivity|]. destruct (turn ev thr p); [apply IH|reflexivity]. Qed.
Lemma turns_stuck ev thr p : turn ev thr p = Some p -> forall n, turns n ev thr p = Some p.
Proof. intros H. induction n as [|n IH]; cbn; [reflexivity|]. rewrite H. exact IH. Qed.
Lemma never_ends ev thr p0 p k : turns k ev thr p0 = Some p -> turn ev thr p = Some p -> forall n, turns n ev thr p0 <> None.
Proof.
  intros A B n F. assert (X : turns (n + k) ev thr p0 = None) by (rewrite turns_add, F; reflexivity).
  rewrite Nat.add_comm, turns_add, A, turns_stuck in X by exact B. discriminate.
Qed.
Definition test_wmin := dbl 7378697629483821 (-66).
Definition test_wp := dbl 6288211335136391 (-53).
Definition test_threshold := dbl 6485183463413514 (-60).
Lemma test_never_ends n : turns n (fun _ => f_one) test_threshold (test_wmin, test_wp) <> None.
Proof.
  destruct (turns 120 (fun _ => f_one) test_threshold (test_wmin, test_wp)) as [p|] eqn:E; [|vm_compute in E; discriminate].
  apply (never_ends _ _ _ p 120 E). vm_compute in E. injection E as <-. vm_compute. reflexivity.
Qed.
