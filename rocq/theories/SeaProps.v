(** Theorems about the wave spectra, their discretisation and the configuration of irregular wave fields:
    C41 (energy), C42 (amplitudes), C44 (bandwidth search), C63 (directional spreading), C64 (configuration),
    C65 (files); C61 for the optimised irregular field.  Vocabulary: SeaSpec.v, WavSpec.v. *)
From Coq Require Import Reals List Lra Lia Psatz Arith ZArith Floats.SpecFloat.
From Coquelicot Require Import Coquelicot.
From Verif Require FunProofs.
From Verif Require Import GeoModel DispModel DispProps WavModel WavSpec WavProofs WavProofs2 WavProofs3 SeaModel SeaSpec SeaProofs SeaProofs2 SeaProofs3 SeaProofs4 SeaProofs5 SeaProofs6.
Import ListNotations.
Open Scope R_scope.

Lemma zero_moment_ext f g m : (forall w, 0 < w -> f w = g w) -> zero_moment f m -> zero_moment g m.
Proof.
  intros H. unfold zero_moment. apply is_RInt_gen_ext. exists (fun x => 0 < x) (fun y => 0 < y).
  - exists (mkposreal 1 Rlt_0_1). intros; auto.
  - exists 0. auto.
  - intros x y X Y z [Z _]. apply H. cbn in Z. assert (0 < Rmin x y) by (apply Rmin_pos; auto). lra.
Qed.
Lemma wp_pos tp : 0 < tp -> 0 < 2 * PI / tp.
Proof. intros H. pose proof PI_RGT_0. apply Rdiv_lt_0_compat; lra. Qed.
Lemma four_pos x : 0 < x -> 0 < x * x * x * x.
Proof. intros H. repeat apply Rmult_lt_0_compat; auto. Qed.
Lemma pm_cpos wp : 0 < wp -> 0 < (1408 / 1000 * wp) * (1408 / 1000 * wp) * (1408 / 1000 * wp) * (1408 / 1000 * wp) / PI.
Proof. intros H. pose proof PI_RGT_0. apply Rdiv_lt_0_compat; [apply four_pos|]; lra. Qed.
Lemma pm_dens hs tp w : 0 < tp -> w <> 0 -> let wp := 2 * PI / tp in Eval (new_pm hs tp) w = dens (hs * hs / 16) ((1408 / 1000 * wp) * (1408 / 1000 * wp) * (1408 / 1000 * wp) * (1408 / 1000 * wp) / PI) w.
Proof. intros T W wp. unfold Eval, new_pm. cbn [sp_kind sp_hs sp_wp]. apply pm_as; [apply wp_pos; exact T|exact W]. Qed.
Lemma js_dens hs tp g w : 0 < tp -> 0 < g -> 0 < w -> let wp := 2 * PI / tp in
  Eval (new_jonswap hs tp g) w = dens (hs * hs / 16) (5 / 4 * (wp * wp * wp * wp)) w * hj (1 - 287 / 1000 * ln g) (ln g) wp (if Rle_dec w wp then SIGMA2_1_left else SIGMA2_1_right) w.
Proof. intros T G W wp. unfold Eval, new_jonswap. cbn [sp_kind sp_hs sp_wp]. apply jonswap_as; auto. apply wp_pos. exact T. Qed.
Lemma dens_nonneg E c w : 0 <= E -> 0 <= c -> 0 < w -> 0 <= dens E c w.
Proof. intros HE C W. unfold dens. apply Rmult_le_pos; [apply Rmult_le_pos; [exact HE|]|left; apply exp_pos]. apply Rdiv_le_0_compat; [lra|]. repeat apply Rmult_lt_0_compat; auto. Qed.

(** ** C41 *)
(** The energy of the Pierson-Moskowitz spectrum and of the JONSWAP spectrum with gamma = 1 *)
Theorem C41_pierson_moskowitz : forall hs tp, 0 < tp -> zero_moment (Eval (new_pm hs tp)) (hs * hs / 16).
Proof.
  intros hs tp T. pose proof (wp_pos tp T) as WP. apply (zero_moment_ext (dens (hs * hs / 16) ((1408 / 1000 * (2 * PI / tp)) * (1408 / 1000 * (2 * PI / tp)) * (1408 / 1000 * (2 * PI / tp)) * (1408 / 1000 * (2 * PI / tp)) / PI))).
  - intros w W. symmetry. apply pm_dens; [exact T|lra].
  - apply dens_energy. apply pm_cpos. exact WP.
Qed.
Theorem C41_jonswap : forall hs tp, 0 < tp -> zero_moment (Eval (new_jonswap hs tp 1)) (hs * hs / 16).
Proof.
  intros hs tp T. pose proof (wp_pos tp T) as WP. set (wp := 2 * PI / tp) in *. apply (zero_moment_ext (dens (hs * hs / 16) (5 / 4 * (wp * wp * wp * wp)))).
  - intros w W. symmetry. rewrite js_dens by lra. fold wp. unfold hj. rewrite ln_1. rewrite !Rmult_0_l, Rmult_0_r, exp_0. ring.
  - apply dens_energy. pose proof (four_pos wp WP). lra.
Qed.
(** Non negative for positive frequencies: Pierson-Moskowitz always, JONSWAP in the documented range of gamma *)
Theorem C41_nonneg : forall hs tp w, 0 < tp -> 0 < w ->
  0 <= Eval (new_pm hs tp) w /\ forall g, 1 <= g <= 10 -> 0 <= Eval (new_jonswap hs tp g) w.
Proof.
  intros hs tp w T W. pose proof (wp_pos tp T) as WP. split.
  - rewrite pm_dens by lra. apply dens_nonneg; [nra| |exact W]. left. apply pm_cpos. exact WP.
  - intros g G. rewrite js_dens by lra. destruct (ln_ten g G) as [L1 L2]. apply Rmult_le_pos.
    + apply dens_nonneg; [nra| |exact W]. pose proof (four_pos _ WP). lra.
    + unfold hj. apply Rmult_le_pos; [lra|left; apply exp_pos].
Qed.
(** A larger gamma only triggers a warning and gives a negative density at every frequency *)
Theorem C114_nonneg_refuted : forall hs tp w, hs <> 0 -> 0 < tp -> 0 < w -> Eval (new_jonswap hs tp 81) w < 0.
Proof.
  intros hs tp w H T W. pose proof (wp_pos tp T) as WP. rewrite js_dens by lra. set (wp := 2 * PI / tp) in *.
  assert (L3 : 1 <= ln 3). { apply Rnot_lt_le. intros F. apply exp_increasing in F. rewrite exp_ln in F by lra. pose proof exp_le_3. lra. }
  assert (L : 4 <= ln 81). { replace 81 with (3 * 3 * (3 * 3)) by ring. assert (ln (3 * 3) = ln 3 + ln 3) by (apply ln_mult; lra). rewrite ln_mult by lra. lra. }
  assert (P : 0 < dens (hs * hs / 16) (5 / 4 * (wp * wp * wp * wp)) w).
  { unfold dens. apply Rmult_lt_0_compat; [|apply exp_pos]. pose proof (four_pos wp WP). apply Rmult_lt_0_compat; [pose proof (Rsqr_pos_lt hs H) as Q; unfold Rsqr in Q; lra|]. apply Rdiv_lt_0_compat; [lra|]. repeat apply Rmult_lt_0_compat; auto. }
  set (s := if Rle_dec w wp then _ else _). unfold hj. set (e := exp (ln 81 * _)). assert (0 < e) by apply exp_pos. set (k := 1 - 287 / 1000 * ln 81). assert (0 < - k) by (unfold k; lra). set (D := dens _ _ _) in *. assert (0 < D * (- k * e)) by (apply Rmult_lt_0_compat; [exact P|apply Rmult_lt_0_compat; assumption]). lra.
Qed.
(** Proportional to the square of the significant height *)
Theorem C41_scale : forall k hs tp g w, Eval (new_pm (k * hs) tp) w = k * k * Eval (new_pm hs tp) w /\ Eval (new_jonswap (k * hs) tp g) w = k * k * Eval (new_jonswap hs tp g) w.
Proof.
  intros k hs tp g w. unfold Eval, new_pm, new_jonswap. cbn [sp_kind sp_hs sp_wp]. split.
  - unfold pm_eval. cbv zeta. unfold Rdiv. ring.
  - unfold jonswap_eval. cbv zeta. destruct (Rlt_dec 0 w); [|ring]. destruct (Rle_dec w (2 * PI / tp)); ring.
Qed.
(** The peak of the JONSWAP spectrum is at the peak frequency 2 pi / Tp; that of the Pierson-Moskowitz spectrum
    is within 0.2 % of it (on the fourth power), the constant 1.408 being rounded *)
Theorem C41_jonswap_peak : forall hs tp g w, 0 < tp -> 0 < w -> 1 <= g <= 10 -> Eval (new_jonswap hs tp g) w <= Eval (new_jonswap hs tp g) (2 * PI / tp).
Proof.
  intros hs tp g w T W G. pose proof (wp_pos tp T) as WP. rewrite !js_dens by lra. set (wp := 2 * PI / tp) in *. destruct (ln_ten g G) as [L1 L2]. pose proof (four_pos wp WP) as W4.
  apply Rmult_le_compat.
  - apply dens_nonneg; [nra|lra|exact W].
  - unfold hj. apply Rmult_le_pos; [lra|left; apply exp_pos].
  - apply dens_peak; auto; nra.
  - unfold hj. apply Rmult_le_compat_l; [lra|]. apply Rnot_lt_le. intros F. apply exp_lt_inv in F. revert F. apply Rle_not_lt. apply Rmult_le_compat_l; [lra|].
    rewrite Rminus_eq_0. replace (- (0 * 0) / (2 * (wp * wp))) with 0 by (field; lra). rewrite Rmult_0_r, exp_0.
    set (s := if Rle_dec w wp then _ else _). assert (S2 : 2 <= s) by (unfold s; pose proof sigma_bounds; destruct (Rle_dec w wp); lra).
    replace (s * (- ((w - wp) * (w - wp)) / (2 * (wp * wp)))) with (- (s * ((w - wp) * (w - wp) / (2 * (wp * wp))))) by (field; lra). apply exp_scaled.
    apply Rmult_le_pos; [lra|]. apply Rdiv_le_0_compat; [apply Rle_0_sqr|nra].
Qed.
Theorem C41_pm_peak : forall hs tp, 0 < tp -> exists w0, 0 < w0 /\ (forall w, 0 < w -> Eval (new_pm hs tp) w <= Eval (new_pm hs tp) w0) /\
  let wp := 2 * PI / tp in wp * wp * wp * wp <= w0 * w0 * w0 * w0 <= 1002 / 1000 * (wp * wp * wp * wp).
Proof.
  intros hs tp T. pose proof (wp_pos tp T) as WP. set (wp := 2 * PI / tp) in *. pose proof (pm_cpos wp WP) as CP. set (c := _ / PI) in CP.
  destruct (fourth (4 / 5 * c) ltac:(lra)) as [w0 [P0 Q0]]. exists w0. spl.
  - exact P0.
  - intros w W. rewrite !pm_dens by lra. fold wp. fold c. apply dens_peak; auto; [nra|lra].
  - cbv zeta. rewrite Q0. pose proof (four_pos wp WP) as W4. pose proof PI_close as [P1 P2].
    assert (CV : c * PI = 1408 / 1000 * (1408 / 1000) * (1408 / 1000) * (1408 / 1000) * (wp * wp * wp * wp)) by (unfold c; field; lra).
    split; apply Rmult_le_reg_r with PI; try lra; replace (4 / 5 * c * PI) with (4 / 5 * (c * PI)) by ring; rewrite CV; nra.
Qed.
(** A JONSWAP sea of 4 m and 10 s *)
Example C41_case : zero_moment (Eval (new_jonswap 4 10 1)) 1 /\ zero_moment (Eval (new_pm 4 10)) 1.
Proof. replace 1 with (4 * 4 / 16) at 2 3 by lra. split; [apply C41_jonswap|apply C41_pierson_moskowitz]; lra. Qed.

(** ** C42 *)
Definition increasing (v : list R) : Prop := forall i, (i + 1 < length v)%nat -> nth i v 0 <= nth (i + 1) v 0.
Lemma width_nonneg v i : increasing v -> (i < length v)%nat -> 0 <= width v i.
Proof.
  intros I H. unfold width. destruct (Nat.eqb_spec (length v) 1); [lra|]. destruct (Nat.eqb_spec i 0).
  - specialize (I 0%nat ltac:(lia)). cbn in I. cbn. lra.
  - destruct (Nat.eqb_spec i (length v - 1)).
    + pose proof (I (length v - 2)%nat ltac:(lia)) as J. replace (length v - 2 + 1)%nat with (length v - 1)%nat in J by lia. lra.
    + pose proof (I i ltac:(lia)) as J1. pose proof (I (i - 1)%nat ltac:(lia)) as J2. replace (i - 1 + 1)%nat with i in J2 by lia. lra.
Qed.
Lemma sqrt_half x : 0 <= x -> sqrt (2 * x) * sqrt (2 * x) / 2 = x.
Proof. intros H. rewrite sqrt_sqrt by lra. field. Qed.
(** One amplitude per frequency, and the energy of each component, unless there are three frequencies *)
Theorem C42_amplitudes : forall s v, v <> [] -> length v <> 3%nat -> exists amps, GetWaveAmplitudes1 s v = Ok amps /\ length amps = length v /\
  (increasing v -> forall i, (i < length v)%nat -> 0 <= Eval s (nth i v 0) -> nth i amps 0 * nth i amps 0 / 2 = Eval s (nth i v 0) * width v i).
Proof.
  intros s v NE N3. eexists. split; [apply amps1; assumption|]. rewrite map_length, seq_length. split; [reflexivity|]. intros I i Hi P.
  set (g := fun i => sqrt (2 * Eval s (nth i v 0) * width v i)). rewrite (nth_indep _ 0 (g 0%nat)) by (rewrite map_length, seq_length; exact Hi). rewrite (map_nth g (seq 0 (length v)) 0%nat i), seq_nth by exact Hi. cbn [Nat.add]. unfold g.
  rewrite Rmult_assoc. apply sqrt_half. apply Rmult_le_pos; [exact P|apply width_nonneg; assumption].
Qed.
(** With three frequencies the widths are one short: undefined behaviour for every spectrum; the same with
    three directions *)
Theorem C115_three_refuted : forall s a b c, GetWaveAmplitudes1 s [a; b; c] = Undef.
Proof. apply amps1_three. Qed.
Theorem C115_three_directions_refuted : forall s m a b c freqs l, sp_dir s = Some m -> freqs <> [] -> length freqs <> 3%nat -> spreading m [a; b; c] (/ 2 * (a + c)) = Ok l -> GetWaveAmplitudes2 s freqs [a; b; c] = Undef.
Proof.
  intros s m a b c freqs l M F1 F3 SP. unfold GetWaveAmplitudes2. cbn [length vat nth_error of_option rbind Nat.sub]. rewrite M. change (vat [a; b; c] 0) with (Ok a). change (vat [a; b; c] 2) with (Ok c). cbn [rbind]. rewrite SP. cbn [rbind]. rewrite disc_three, (disc_ok freqs) by assumption. cbn [rbind].
  assert (LL : length l = 3%nat). { cbn in SP. destruct (dir_eval m a _); cbn in SP; try discriminate. destruct (dir_eval m b _); cbn in SP; try discriminate. destruct (dir_eval m c _); cbn in SP; try discriminate. injection SP as <-. reflexivity. }
  assert (LF : (0 < length freqs)%nat) by (destruct freqs; [contradiction|cbn; lia]).
  apply (rcollect_undef _ 3 0 2); [lia| |].
  - intros i Hi. eexists. apply rcollect_ok. intros k Hk. rewrite (vat_ok freqs k 0), (vat_ok l (0 + i) 0), (vat_ok [b - a; c - b] (0 + i) 0), (vat_map (width freqs)) by (cbn; lia). cbn [rbind]. reflexivity.
  - apply (rcollect_undef _ (length freqs) 0 0); [lia|intros; lia|]. rewrite (vat_ok freqs (0 + 0) 0), (vat_ok l (0 + 2) 0) by (cbn; lia). cbn [rbind]. rewrite (vat_bad [b - a; c - b] (0 + 2)) by (cbn; lia). reflexivity.
Qed.
(** The widths do not add up to the range: the two end intervals are counted one time and a half *)
Theorem C115_widths_refuted : forall v, (2 <= length v)%nat -> let n := length v in
  total (map (width v) (seq 0 n)) = (nth (n - 1) v 0 - nth 0 v 0) + ((nth 1 v 0 - nth 0 v 0) + (nth (n - 1) v 0 - nth (n - 2) v 0)) / 2.
Proof. apply width_sum. Qed.
Theorem C115_two_refuted : forall a b, total (map (width [a; b]) (seq 0 2)) = 2 * (b - a).
Proof. intros a b. cbn. ring. Qed.
(** The total energy of the amplitudes is the trapezoidal rule plus half of the two end intervals *)
Theorem C42_energy : forall s v, (2 <= length v)%nat -> length v <> 3%nat -> increasing v -> (forall i, (i < length v)%nat -> 0 <= Eval s (nth i v 0)) ->
  exists amps, GetWaveAmplitudes1 s v = Ok amps /\ let n := length v in
  total (map (fun a => a * a / 2) amps) = trapezoid (Eval s) v + (Eval s (nth 0 v 0) * (nth 1 v 0 - nth 0 v 0) + Eval s (nth (n - 1) v 0) * (nth (n - 1) v 0 - nth (n - 2) v 0)) / 2.
Proof.
  intros s v L N3 I P. eexists. split; [apply amps1; [intros ->; cbn in L; lia|exact N3]|]. cbv zeta. rewrite <- trap_sum by exact L. f_equal. rewrite map_map. apply map_ext_in. intros i Hi. apply in_seq in Hi.
  rewrite Rmult_assoc. apply sqrt_half. apply Rmult_le_pos; [apply P; lia|apply width_nonneg; [exact I|lia]].
Qed.
(** Directional spectrum *)
Theorem C42_directions : forall s freqs dirs g, freqs <> [] -> length freqs <> 3%nat -> dirs <> [] -> length dirs <> 3%nat ->
  match sp_dir s with None => dirs = [nth 0 dirs 0] /\ g = [1] | Some m => spreading m dirs (/ 2 * (nth 0 dirs 0 + nth (length dirs - 1) dirs 0)) = Ok g end ->
  exists t, GetWaveAmplitudes2 s freqs dirs = Ok t /\ length t = length dirs /\ (forall r, In r t -> length r = length freqs) /\
  (increasing freqs -> increasing dirs -> forall j i, (j < length dirs)%nat -> (i < length freqs)%nat -> 0 <= Eval s (nth i freqs 0) -> 0 <= nth j g 0 ->
    let a := nth i (nth j t []) 0 in a * a / 2 = Eval s (nth i freqs 0) * nth j g 0 * width dirs j * width freqs i).
Proof.
  intros s freqs dirs g F1 F3 D1 D3 M. pose proof (amps2 s freqs dirs g F1 F3 D1 D3 M) as E. pose proof (amps2_shape _ _ _ _ E) as [S1 S2]. eexists. split; [exact E|]. split; [exact S1|]. split; [exact S2|].
  intros IF ID j i Hj Hi P1 P2. cbv zeta. set (h := fun j i => sqrt (2 * Eval s (nth i freqs 0) * nth j g 0 * width dirs j * width freqs i)).
  match goal with |- context [nth i (nth j ?t []) 0] => change t with (map (fun j => map (h j) (seq 0 (length freqs))) (seq 0 (length dirs))) end.
  rewrite (nth_indep _ [] (map (h 0%nat) (seq 0 (length freqs)))) by (rewrite map_length, seq_length; exact Hj). rewrite (map_nth (fun j => map (h j) (seq 0 (length freqs))) (seq 0 (length dirs)) 0%nat j), seq_nth by exact Hj. cbn [Nat.add].
  rewrite (nth_indep _ 0 (h j 0%nat)) by (rewrite map_length, seq_length; exact Hi). rewrite (map_nth (h j) (seq 0 (length freqs)) 0%nat i), seq_nth by exact Hi. cbn [Nat.add]. unfold h.
  rewrite !Rmult_assoc. apply sqrt_half. repeat apply Rmult_le_pos; auto; apply width_nonneg; assumption.
Qed.
(** Several directions without a directional model: undefined behaviour *)
Theorem C115_no_model_refuted : forall s freqs d0 d1 r, sp_dir s = None -> freqs <> [] -> length freqs <> 3%nat -> length (d0 :: d1 :: r) <> 3%nat -> GetWaveAmplitudes2 s freqs (d0 :: d1 :: r) = Undef.
Proof.
  intros s freqs d0 d1 r M F1 F3 D3. set (dirs := d0 :: d1 :: r) in *. assert (LD : (2 <= length dirs)%nat) by (cbn; lia). assert (LF : (0 < length freqs)%nat) by (destruct freqs; [contradiction|cbn; lia]).
  unfold GetWaveAmplitudes2. cbv zeta. rewrite (vat_ok dirs 0 0), (vat_ok dirs (length dirs - 1) 0) by lia. cbn [rbind]. rewrite M. cbn [rbind]. rewrite (disc_ok dirs), (disc_ok freqs) by (auto; discriminate). cbn [rbind].
  apply (rcollect_undef _ (length dirs) 0 1); [lia| |].
  - intros i Hi. assert (i = 0%nat) by lia. subst i. eexists. apply rcollect_ok. intros k Hk. rewrite (vat_ok freqs k 0), (vat_ok [1] (0 + 0) 0), (vat_map (width dirs)), (vat_map (width freqs)) by (cbn; lia). cbn [rbind]. reflexivity.
  - apply (rcollect_undef _ (length freqs) 0 0); [lia|intros; lia|]. rewrite (vat_ok freqs (0 + 0) 0) by (cbn; lia). cbn [rbind]. rewrite (vat_bad [1] (0 + 1)) by (cbn; lia). reflexivity.
Qed.
(** The overload with a number of waves: equal widths for all, n of them for n - 1 intervals *)
Theorem C42_uniform : forall s n a b, (2 <= n)%nat -> exists amps, GetWaveAmplitudesN s n a b = Ok amps /\ length amps = n /\
  forall i, (i < n)%nat -> let w := a + INR i * ((b - a) / INR (n - 1)) in a <= b -> 0 <= Eval s w -> nth i amps 0 * nth i amps 0 / 2 = Eval s w * ((b - a) / INR (n - 1)).
Proof.
  intros s n a b N. unfold GetWaveAmplitudesN. cbv zeta. rewrite (vat_ok _ 1 0), (vat_ok _ 0 0) by (rewrite linspace_length; lia). cbn [rbind]. rewrite !linspace_nth by lia. eexists. split; [reflexivity|]. rewrite map_length, linspace_length. split; [reflexivity|].
  intros i Hi AB P. set (d := (b - a) / INR (n - 1)) in *. assert (NP : 0 < INR (n - 1)) by (apply lt_0_INR; lia). assert (D : 0 <= d) by (apply Rdiv_le_0_compat; lra).
  set (g := fun w => sqrt (2 * Eval s w * (a + INR 1 * d - (a + INR 0 * d)))). rewrite (nth_indep _ 0 (g 0)) by (rewrite map_length, linspace_length; exact Hi). rewrite (map_nth g). rewrite linspace_nth by exact Hi. fold d. unfold g. cbn [INR].
  replace (a + 1 * d - (a + 0 * d)) with d by ring. rewrite Rmult_assoc. apply sqrt_half. apply Rmult_le_pos; assumption.
Qed.
Example C42_case : increasing [1; 2; 4; 7] /\ exists amps, GetWaveAmplitudes1 (new_jonswap 3 9 (33 / 10)) [1; 2; 4; 7] = Ok amps /\ length amps = 4%nat /\ width [1; 2; 4; 7] 1 = 3 / 2.
Proof.
  split; [|destruct (C42_amplitudes (new_jonswap 3 9 (33 / 10)) [1; 2; 4; 7]) as [l [A [B _]]]; [discriminate|cbn; lia|exists l; spl; auto; cbn; lra]].
  intros i Hi. cbn in Hi. destruct i as [|[|[|i]]]; cbn; try lra. lia.
Qed.

(** ** C44 *)
(** For every function and bracket the search ends, with an exception or with a point strictly inside the
    bracket where the function is within 1e-10 of the threshold *)
Theorem C44_ends : forall ev a b thr, (forall w, exists e, ev w = Ok e) -> a <= b ->
  exists n, forall m, (n <= m)%nat -> bisect m ev a b thr = Throws \/ exists r e, bisect m ev a b thr = Ok r /\ a < r < b /\ ev r = Ok e /\ Rabs (e - thr) < / 10000000000.
Proof.
  intros ev a b thr T AB. destruct (pow_reaches (Rabs (a - b))) as [n Hn]. destruct (bisect_ends n ev a b thr T Hn) as [r [E Q]]. exists (S n). intros m Hm.
  assert (NR : r <> Running) by (destruct Q as [->|[w ->]]; discriminate). rewrite (bisect_mono (S n) ev a b thr r E NR m Hm). destruct Q as [->|[w ->]]; [left; reflexivity|right].
  destruct (bisect_ok _ _ _ _ _ _ AB E) as [P [e [Q1 Q2]]]. exists w, e. auto.
Qed.
(** With a crossing inside the bracket and a slope below 1e10 it does not throw *)
Theorem C44_found : forall (f : R -> R) K a b thr, K < 10000000000 -> / 100000000000000000000 < b - a ->
  (forall u v, a <= u <= b -> a <= v <= b -> Rabs (f u - f v) <= K * Rabs (u - v)) -> (f a - thr) * (f b - thr) < 0 ->
  exists n r, (forall m, (n <= m)%nat -> bisect m (fun w => Ok (f w)) a b thr = Ok r) /\ a < r < b /\ Rabs (f r - thr) < / 10000000000.
Proof.
  intros f K a b thr HK AB L SG. apply (bisect_finds f K); auto; rewrite eps_val; [|lra]. apply Rmult_lt_reg_r with 10000000000; [lra|]. rewrite Rmult_assoc, Rinv_l by lra. lra.
Qed.
(** The bandwidth of every usual sea state: found on both sides of the peak *)
Theorem C44_jonswap : forall hs tp gamma, 0 < hs <= 30 -> 3 <= tp <= 180 -> 1 <= gamma <= 10 ->
  exists k wmin wmax, (forall j, (k <= j)%nat -> GetFrequencyBandwidth j (new_jonswap hs tp gamma) = Ok (wmin, wmax)) /\ 1 / 10000 < wmin < 2 * PI / tp /\ 2 * PI / tp < wmax < 10 /\
    Rabs (Eval (new_jonswap hs tp gamma) wmin - hs * hs / 16 / 100) < / 10000000000 /\ Rabs (Eval (new_jonswap hs tp gamma) wmax - hs * hs / 16 / 100) < / 10000000000.
Proof. apply jonswap_bandwidth. Qed.
Theorem C44_pierson_moskowitz : forall hs tp, 0 < hs <= 30 -> 3 <= tp <= 180 ->
  exists k wmin wmax, (forall j, (k <= j)%nat -> GetFrequencyBandwidth j (new_pm hs tp) = Ok (wmin, wmax)) /\ 1 / 10000 < wmin < 2 * PI / tp /\ 2 * PI / tp < wmax < 10 /\
    Rabs (Eval (new_pm hs tp) wmin - hs * hs / 16 / 100) < / 10000000000 /\ Rabs (Eval (new_pm hs tp) wmax - hs * hs / 16 / 100) < / 10000000000.
Proof. apply pm_bandwidth. Qed.
(** In binary64 the exception is out of reach: two neighbouring doubles of this size are further apart than
    1e-20.  On the default FrTestWaveSpectrum the search of the lower bound never ends. *)
Theorem C117_binary64_refuted : forall n, turns n (fun _ => f_one) test_threshold (test_wmin, test_wp) <> None.
Proof. exact test_never_ends. Qed.
Example C44_case : exists k wmin wmax, (forall j, (k <= j)%nat -> GetFrequencyBandwidth j default_spectrum = Ok (wmin, wmax)) /\ wmin < 2 * PI / 9 < wmax.
Proof. destruct (C44_jonswap 3 9 (33 / 10)) as [k [a [b [H1 [H2 [H3 _]]]]]]; try lra. exists k, a, b. split; [exact H1|lra]. Qed.

(** ** C63 *)
(** The cos2s spreading function integrates to one over the circle, is largest in the mean direction,
    vanishes in the opposite one and is symmetric, for every natural spreading factor *)
Theorem C63_normalised : forall tgamma n mean, gamma_factorial tgamma -> (1 <= n)%nat ->
  exists D, (forall t, dir_eval (new_cos2s tgamma (INR n)) t mean = Ok (D t)) /\ is_RInt D (mean - PI) (mean + PI) 1 /\
  (forall t, 0 <= D t <= D mean) /\ (forall t, D (mean + t) = D (mean - t)) /\ D (mean + PI) = 0.
Proof.
  intros tg n mean G N. exists (fun t => cs_val n * cos (/ 2 * (t - mean)) ^ (2 * n)). pose proof (cs_bounds n N) as [C1 _]. pose proof PI_RGT_0. assert (0 < / PI) by (apply Rinv_0_lt_compat; lra). spl.
  - intros t. apply dir_eval_nat; assumption.
  - replace 1 with (cs_val n * Wn n) by (apply cs_wallis; exact N). apply (is_RInt_scal (V := R_NormedModule)). apply wallis.
  - intros t. replace (/ 2 * (mean - mean)) with 0 by ring. rewrite cos_0, pow1. rewrite pow_mult. assert (Q : 0 <= cos (/ 2 * (t - mean)) ^ 2 <= 1). { pose proof (COS_bound (/ 2 * (t - mean))). set (c := cos _) in *. cbn [pow]. nra. }
    assert (P0 : 0 <= (cos (/ 2 * (t - mean)) ^ 2) ^ n) by (apply pow_le; lra). assert (P1 : (cos (/ 2 * (t - mean)) ^ 2) ^ n <= 1) by (rewrite <- (pow1 n); apply pow_incr; lra). split; [apply Rmult_le_pos; lra|]. apply Rmult_le_compat_l; lra.
  - intros t. replace (/ 2 * (mean + t - mean)) with (/ 2 * t) by ring. replace (/ 2 * (mean - t - mean)) with (- (/ 2 * t)) by ring. rewrite cos_neg. reflexivity.
  - replace (/ 2 * (mean + PI - mean)) with (PI / 2) by field. rewrite cos_PI2, pow_i by lia. ring.
Qed.
(** The band of directions is centred on the mean direction, inside the circle, and its ends are where the
    spreading function is within 1e-10 of 1 % ... *)
Theorem C63_bandwidth : forall tgamma n mean, gamma_factorial tgamma -> (1 <= n <= 100000)%nat ->
  exists k lo hi dlo dhi, (forall j, (k <= j)%nat -> GetDirectionBandwidth j (new_cos2s tgamma (INR n)) mean = Ok (lo, hi)) /\ lo + hi = 2 * mean /\ mean - PI < lo < mean /\
  dir_eval (new_cos2s tgamma (INR n)) lo mean = Ok dlo /\ dir_eval (new_cos2s tgamma (INR n)) hi mean = Ok dhi /\ Rabs (dlo - 1 / 100) < / 10000000000 /\ dhi = dlo.
Proof.
  intros tg n mean G N. destruct (dir_bisect tg n mean G N) as [k [r [H1 [H2 H3]]]]. exists k, r, (r + 2 * (mean - r)). eexists. eexists. spl; [|lra|lra|lra|apply dir_eval_nat; [exact G|lia]|apply dir_eval_nat; [exact G|lia]|exact H3|].
  - intros j Hj. unfold GetDirectionBandwidth. rewrite (H1 j Hj). reflexivity.
  - replace (/ 2 * (r + 2 * (mean - r) - mean)) with (- (/ 2 * (r - mean))) by ring. rewrite cos_neg. reflexivity.
Qed.
(** ... hence what the band leaves out is not part of the discretised energy: for the spreading factor n the
    energy kept over the discretised band is that of the widths (C42), not normalised to one: with two
    directions the two ends of the band get twice its length, at a density of 1 % *)
Theorem C129_two_directions_refuted : forall tgamma n mean, gamma_factorial tgamma -> (1 <= n <= 100000)%nat -> exists k lo hi, GetDirectionBandwidth k (new_cos2s tgamma (INR n)) mean = Ok (lo, hi) /\
  exists g, spreading (new_cos2s tgamma (INR n)) [lo; hi] (/ 2 * (lo + hi)) = Ok g /\ total (map (fun j => nth j g 0 * width [lo; hi] j) (seq 0 2)) < 2 / 10.
Proof.
  intros tg n mean G N. destruct (C63_bandwidth tg n mean G N) as [k [lo [hi [dlo [dhi [H1 [H2 [H3 [H4 [H5 [H6 H7]]]]]]]]]]]. exists k, lo, hi. split; [apply H1; lia|].
  exists [dlo; dhi]. replace (/ 2 * (lo + hi)) with mean by (rewrite H2; field). cbn [spreading]. rewrite H4, H5. cbn [rbind]. split; [reflexivity|]. subst dhi. cbn. pose proof PI_close as [P1 P2]. apply Rabs_def2 in H6. nra.
Qed.
(** A negative argument with a non integer exponent: undefined outside half a turn of the mean direction *)
Theorem C129_half_turn_refuted : forall tgamma t mean, cos (/ 2 * (t - mean)) < 0 -> dir_eval (new_cos2s tgamma (5 / 4)) t mean = Undef.
Proof.
  intros tg t mean H. unfold new_cos2s, dir_eval, pow2s. destruct (Rlt_dec 0 _); [lra|]. destruct (Req_EM_T _ 0); [lra|]. destruct (Req_EM_T (IZR (Int_part (2 * (5 / 4)))) (2 * (5 / 4))) as [E|]; [|reflexivity].
  exfalso. assert (D : IZR (2 * Int_part (2 * (5 / 4))) = 5) by (rewrite mult_IZR, E; field). apply eq_IZR in D. lia.
Qed.
Example C63_case : exists tg, gamma_factorial tg.
Proof.
  exists (fun x => INR (fact (Z.to_nat (Int_part (x - 1))))). intros n. replace (INR n + 1 - 1) with (IZR (Z.of_nat n)) by (rewrite <- INR_IZR_INZ; ring). rewrite FunProofs.Int_part_IZR, Nat2Z.id. reflexivity.
Qed.

(** ** C64 *)
Lemma numbers_ok fuel s freqs ks : 0 < s_grav s -> (s_inf s = false -> 0 < s_depth s) ->
  (if s_inf s then ks = map (fun f => f * f / s_grav s) freqs else SolveWaveDispersionRelationVect fuel (s_depth s) freqs (s_grav s) = Some ks) -> wave_numbers s freqs ks.
Proof.
  intros G D H. unfold wave_numbers. destruct (s_inf s).
  - subst ks. induction freqs as [|f r IH]; cbn; constructor; [field; lra|exact IH].
  - apply C40_vector in H. specialize (D eq_refl). induction H; constructor; [|assumption]. eapply C40_residual; eauto.
Qed.
Lemma numbers_pos s freqs ks : 0 < s_grav s -> (forall f, In f freqs -> 0 < f) -> wave_numbers s freqs ks -> forall k, In k ks -> 0 < k.
Proof.
  intros G P H. unfold wave_numbers in H. induction H as [|f k fs ks H F IH]; intros k0 K; [contradiction|]. assert (FP : 0 < f) by (apply P; left; reflexivity). destruct K as [<-|K].
  - destruct (s_inf s); [|apply Rlt_le_trans with (2 := proj1 H); apply Rdiv_lt_0_compat; nra]. assert (0 < s_grav s * k) by nra. nra.
  - apply IH; [intros; apply P; right; assumption|exact K].
Qed.
Lemma init_freqs_pos lo hi n (l : list R) : 0 < lo -> lo <= hi -> (if Nat.eqb n 1 then l = [lo] /\ lo = hi else l = linspace lo hi n) -> forall f, In f l -> lo <= f <= hi.
Proof.
  intros L H E f F. destruct (Nat.eqb n 1); [destruct E as [-> ->]; destruct F as [<-|[]]; lra|]. subst l. unfold linspace in F. apply in_map_iff in F. destruct F as [i [<- I]]. apply in_seq in I.
  destruct (Nat.eq_dec n 1) as [->|N1]; [assert (i = 0%nat) by lia; subst; cbn [INR]; lra|].
  assert (0 < INR (n - 1)) by (apply lt_0_INR; lia). assert (I1 : 0 <= INR i) by apply pos_INR. assert (I2 : INR i <= INR (n - 1)) by (apply le_INR; lia).
  replace (INR i * ((hi - lo) / INR (n - 1))) with ((hi - lo) * (INR i / INR (n - 1))) by (field; lra). assert (0 <= INR i / INR (n - 1) <= 1). { split; [apply Rdiv_le_0_compat; lra|]. apply Rmult_le_reg_r with (INR (n - 1)); [lra|]. unfold Rdiv. rewrite Rmult_assoc, Rinv_l by lra. lra. } nra.
Qed.
(** After any sequence of calls on a new field without file that ended with Initialize, the tables have the
    right sizes, the wave numbers are those of the frequencies, the amplitudes those of the spectrum, and
    every query is answered *)
Theorem C64_ready : forall fuel tgamma s0 junk l s rnd w, List.Forall own_call l -> 0 < s_grav s -> (s_inf s = false -> 0 < s_depth s) ->
  i_run fuel tgamma (I_make s0 junk) (l ++ [(s, IInit rnd)]) = Ok w ->
  let q := iw_q w in
  tables_fit q /\ wave_numbers s (iq_freqs q) (iq_ks q) /\ (forall f, In f (iq_freqs q) -> 0 < iw_min w <= f /\ f <= iw_max w) /\ GetWaveAmplitudes2 (iw_spec w) (iq_freqs q) (iq_dirs q) = Ok (iq_amp q) /\
  forall x y z fc, exists e v a p, IGetElevation q x y fc = Some e /\ IGetVelocity q x y z fc = Some v /\ IGetAcceleration q x y z fc = Some a /\ IGetPressure q x y z fc = Some p.
Proof.
  intros fuel tg s0 junk l s rnd w O G D H. cbv zeta. rewrite run_app in H. destruct (i_run fuel tg (I_make s0 junk) l) as [w0| | | |] eqn:E; cbn [rbind] in H; try discriminate. cbn in H.
  destruct (I_initialize fuel rnd s w0) as [w1| | | |] eqn:IE; cbn in H; try discriminate. injection H as ->.
  pose proof (run_config _ _ _ _ _ (make_config s0 junk) O E) as K. pose proof (init_inv _ _ _ _ _ K IE) as [_ [TF [_ [M0 [M1 [FR [KS [AM [SPE _]]]]]]]]].
  pose proof (numbers_ok fuel s _ _ G D KS) as WN. pose proof (init_freqs_pos _ _ _ _ M0 M1 FR) as FP.
  assert (KN : forall k, In k (iq_ks (iw_q w)) -> k <> 0). { intros k Hk. apply Rgt_not_eq. apply (numbers_pos s (iq_freqs (iw_q w)) (iq_ks (iw_q w)) G); auto. intros f Hf. specialize (FP f Hf). lra. }
  spl; auto.
  - intros f Hf. specialize (FP f Hf). lra.
  - rewrite SPE. exact AM.
  - intros x y z fc. assert (KI : forall i, (i < iq_nbFreq (iw_q w))%nat -> qk (iw_q w) i <> 0) by (intros i Hi; apply KN; apply nth_In; destruct TF as [_ [_ [L _]]]; lia). destruct (I_vel (iw_q w) TF KI x y z fc) as [V1 V2]. do 4 eexists. split; [apply (I_el (iw_q w) TF)|]. split; [exact V1|]. split; [exact V2|]. apply (I_pre (iw_q w) TF).
Qed.
(** The directional parameters asked for: so many equally spaced directions on a band centred on the mean
    direction, at most half a turn on each side; a later mean direction moves the band *)
Definition centred_band (dirs : list R) (n : nat) (mean : R) : Prop :=
  length dirs = n /\ exists lo step, mean - PI < lo < mean /\ 0 < step /\ nth 0 dirs 0 = lo /\ (forall i, (i + 1 < n)%nat -> nth (i + 1) dirs 0 - nth i dirs 0 = step) /\ nth 0 dirs 0 + nth (n - 1) dirs 0 = 2 * mean.
Lemma CWD_band fuel w w' sf cs : (2 <= iq_nbDir (iw_q w))%nat -> sp_dir (iw_spec w) = Some (Cos2s sf cs) -> ComputeWaveDirections fuel w = Ok w' -> centred_band (iq_dirs (iw_q w')) (iq_nbDir (iw_q w)) (iw_mean w).
Proof.
  intros N M H. unfold ComputeWaveDirections in H. cbv zeta in H. rewrite M in H. unfold GetDirectionBandwidth in H.
  destruct (bisect _ _ _ _ _) as [lo| | | |] eqn:B; cbn [rbind fst snd] in H; try discriminate. apply bisect_ok in B; [|pose proof PI_RGT_0; lra]. destruct B as [B _].
  assert (DV : iq_dirs (iw_q w') = linspace lo (lo + 2 * (iw_mean w - lo)) (iq_nbDir (iw_q w))).
  { cbn [iq_freqs set_dirs] in H. destruct (iq_freqs (iw_q w)); [cbn in H; injection H as <-; reflexivity|]. destruct (GetWaveAmplitudes2 _ _ _); cbn [rbind] in H; try discriminate. injection H as <-. reflexivity. }
  rewrite DV. set (n := iq_nbDir (iw_q w)) in *. split; [apply linspace_length|]. set (hi := lo + 2 * (iw_mean w - lo)). assert (NP : 0 < INR (n - 1)) by (apply lt_0_INR; lia).
  exists lo, ((hi - lo) / INR (n - 1)). destruct (linspace_ends lo hi n N) as [E1 E2]. rewrite E1, E2. spl; try lra.
  - apply Rdiv_lt_0_compat; [unfold hi; lra|exact NP].
  - intros i Hi. rewrite !linspace_nth by lia. rewrite plus_INR. cbn [INR]. ring.
  - unfold hi. lra.
Qed.
Theorem C64_directions : forall fuel tgamma w n sf w', (2 <= n)%nat -> SetDirectionalParameters fuel tgamma w n sf DT_COS2S = Ok w' ->
  iq_nbDir (iw_q w') = n /\ sp_dir (iw_spec w') = Some (new_cos2s tgamma sf) /\ centred_band (iq_dirs (iw_q w')) n (iw_mean w) /\
  forall a u fc dc w2, SetMeanWaveDirectionAngle fuel w' a u fc dc = Ok w2 -> iw_mean w2 = wave_angle true a u fc dc /\ centred_band (iq_dirs (iw_q w2)) n (wave_angle true a u fc dc).
Proof.
  intros fuel tg w n sf w' N H. unfold SetDirectionalParameters in H. cbv zeta in H. pose proof (CWD_inv _ _ _ H) as I. cbv zeta in I. cbn in I. destruct I as [I1 [I2 [_ [_ [_ [_ [_ [_ [I9 [I10 _]]]]]]]]]].
  split; [exact I2|]. split; [rewrite I9; reflexivity|]. split; [apply (CWD_band fuel _ w' sf (EvalCs tg sf)) in H; [exact H|exact N|reflexivity]|].
  intros a u fc dc w2 H2. unfold SetMeanWaveDirectionAngle in H2. cbv zeta in H2. cbn [iw_spec iw_q iw_min iw_max iw_file] in H2. rewrite I9 in H2. cbn [sp_dir] in H2. pose proof (CWD_inv _ _ _ H2) as J. cbv zeta in J. cbn in J. split; [apply J|].
  apply (CWD_band fuel _ w2 sf (EvalCs tg sf)) in H2; [|cbn; lia|reflexivity]. cbn in H2. rewrite I2 in H2. exact H2.
Qed.
(** SetDirectionalParameters with the type NONE (which is documented) dereferences a null pointer *)
Theorem C130_none_refuted : forall fuel tgamma w n sf, SetDirectionalParameters fuel tgamma w n sf DT_NONE = Undef.
Proof. reflexivity. Qed.
(** Choosing the spectrum after the directional parameters drops the model but keeps the directions:
    Initialize reads out of range *)
Theorem C130_order_refuted : forall fuel rnd s w sp, s_inf s = true -> iw_file w = false -> (2 <= length (iq_dirs (iw_q w)))%nat -> length (iq_dirs (iw_q w)) <> 3%nat -> (2 <= iq_nbFreq (iw_q w))%nat -> iq_nbFreq (iw_q w) <> 3%nat ->
  0 < iw_min w <= iw_max w -> sp_dir sp = None -> I_initialize fuel rnd s (SetSpectrum w sp) = Undef.
Proof.
  intros fuel rnd s w sp SI FF D2 D3 F2 F3 MM SN. unfold I_initialize, SetSpectrum. cbv zeta. cbn [iw_q iw_file iw_mean iw_min iw_max iw_spec]. rewrite FF. change (iq_dirs (set_base (iw_q w) (VF (vf_kind (iq_vf (iw_q w))) (b_inf (base_init s (iq_b (iw_q w))))) (base_init s (iq_b (iw_q w))))) with (iq_dirs (iw_q w)).
  destruct (iq_dirs (iw_q w)) as [|d0 [|d1 r]] eqn:DE; try (cbn in D2; lia). destruct (Req_EM_T (iw_min w) 0); [lra|]. cbn [rbind fst snd]. unfold SetWaveFrequencies. destruct (Rlt_dec 0 (iw_min w)); [|lra]. destruct (Rle_dec (iw_min w) (iw_max w)); [|lra].
  cbn [set_base iq_nbFreq]. destruct (Nat.eqb_spec (iq_nbFreq (iw_q w)) 0); [lia|]. destruct (Nat.eqb_spec (iq_nbFreq (iw_q w)) 1); [lia|]. cbn [rbind]. cbn [iw_q upd_q iq_b set_base base_init b_inf]. rewrite SI. cbn [rbind]. cbv zeta. cbn [iq_dirs set_freqs set_base iw_spec upd_q]. rewrite DE.
  rewrite C115_no_model_refuted; [reflexivity|exact SN| |rewrite linspace_length; exact F3|exact D3].
  intros F. apply linspace_nil in F. lia.
Qed.
(** Phases generated from a seed do not survive Initialize *)
Theorem C130_seed_refuted : forall fuel tgamma s0 junk l s s' seeded rnd w, List.Forall own_call l ->
  i_run fuel tgamma (I_make s0 junk) (l ++ [(s', IPhases seeded); (s, IInit rnd)]) = Ok w ->
  forall i j, (i < iq_nbDir (iw_q w))%nat -> (j < iq_nbFreq (iw_q w))%nat -> nth j (nth i (iq_phases (iw_q w)) []) 0 = rnd i j.
Proof.
  intros fuel tg s0 junk l s s' seeded rnd w O H. rewrite run_app in H. destruct (i_run fuel tg (I_make s0 junk) l) as [w0| | | |] eqn:E; cbn [rbind] in H; try discriminate. cbn in H.
  set (w2 := upd_q w0 _) in H. destruct (I_initialize fuel rnd s w2) as [w1| | | |] eqn:IE; cbn in H; try discriminate. injection H as ->.
  pose proof (run_config _ _ _ _ _ (make_config s0 junk) O E) as K. assert (K2 : config_ok w2) by (apply (op_config fuel tg w0 (s', IPhases seeded)); [exact K|exact I|reflexivity]). apply (init_inv _ _ _ _ _ K2 IE).
Qed.
(** Without directional model a new mean direction given after Initialize is never applied, even by another
    Initialize *)
Theorem C130_direction_refuted : forall fuel tgamma s0 junk l s rnd a u fc dc rnd' w1 w2, List.Forall own_call l ->
  i_run fuel tgamma (I_make s0 junk) (l ++ [(s, IInit rnd)]) = Ok w1 -> sp_dir (iw_spec w1) = None ->
  i_run fuel tgamma w1 [(s, IMean a u fc dc); (s, IInit rnd')] = Ok w2 -> iq_dirs (iw_q w2) = iq_dirs (iw_q w1) /\ iw_mean w2 = wave_angle true a u fc dc.
Proof.
  intros fuel tg s0 junk l s rnd a u fc dc rnd' w1 w2 O H SN H2. rewrite run_app in H. destruct (i_run fuel tg (I_make s0 junk) l) as [w0| | | |] eqn:E; cbn [rbind] in H; try discriminate. cbn in H.
  destruct (I_initialize fuel rnd s w0) as [w1'| | | |] eqn:IE; cbn in H; try discriminate. injection H as ->.
  pose proof (run_config _ _ _ _ _ (make_config s0 junk) O E) as K. pose proof (init_inv _ _ _ _ _ K IE) as [K1 [TF _]].
  cbn in H2. unfold SetMeanWaveDirectionAngle in H2. cbv zeta in H2. cbn in H2. rewrite SN in H2. cbn in H2.
  set (wm := IW (iw_q w1) _ _ _ _ _) in H2. destruct (I_initialize fuel rnd' s wm) as [w3| | | |] eqn:IE2; cbn in H2; try discriminate. injection H2 as ->.
  assert (K2 : config_ok wm) by exact K1. pose proof (init_inv _ _ _ _ _ K2 IE2) as [_ [_ [_ [_ [_ [_ [_ [_ [_ [ME [DE _]]]]]]]]]]]. split; [|exact ME].
  rewrite DE. cbn. destruct (iq_dirs (iw_q w1)) eqn:D1; [|reflexivity]. destruct TF as [L _]. rewrite D1 in L. cbn in L. destruct K1 as [_ [N _]]. congruence.
Qed.
(** More frequencies given after Initialize leave the phases behind: the next query reads out of range *)
Theorem C130_late_frequencies_refuted : forall fuel tgamma s0 junk l s rnd a b n w1 w2 x y fc, List.Forall own_call l ->
  i_run fuel tgamma (I_make s0 junk) (l ++ [(s, IInit rnd)]) = Ok w1 -> (iq_nbFreq (iw_q w1) < n)%nat ->
  i_run fuel tgamma w1 [(s, IFreq a b n)] = Ok w2 -> IGetElevation (iw_q w2) x y fc = None.
Proof.
  intros fuel tg s0 junk l s rnd a b n w1 w2 x y fc O H LT H2. rewrite run_app in H. destruct (i_run fuel tg (I_make s0 junk) l) as [w0| | | |] eqn:E; cbn [rbind] in H; try discriminate. cbn in H.
  destruct (I_initialize fuel rnd s w0) as [w1'| | | |] eqn:IE; cbn in H; try discriminate. injection H as ->.
  pose proof (run_config _ _ _ _ _ (make_config s0 junk) O E) as K. pose proof (init_inv _ _ _ _ _ K IE) as [K1 [TF _]].
  cbn in H2. destruct (SetWaveFrequencies fuel s w1 a b n) as [w3| | | |] eqn:SW; cbn in H2; try discriminate. injection H2 as ->.
  apply SWF_inv in SW. cbv zeta in SW. destruct SW as [_ [_ [_ [S4 [_ [_ [S7 [S8 [S9 _]]]]]]]]]. destruct TF as [T1 [T2 [T3 [T4 [T5 [T6 T7]]]]]]. destruct K1 as [_ [N0 _]].
  assert (CN : forall (A : Type) (f : nat -> option A) k i0 j, (j < k)%nat -> f (i0 + j)%nat = None -> collect f i0 k = None).
  { intros A f k. induction k as [|k IH]; intros i0 j Hj F; [lia|]. cbn. destruct j as [|j]; [rewrite Nat.add_0_r in F; rewrite F; reflexivity|]. destruct (f i0); [|reflexivity]. cbn. rewrite (IH (S i0) j); [reflexivity|lia|]. rewrite <- F. f_equal. lia. }
  unfold IGetElevation. unfold IComplexElevation. cbv zeta. rewrite (CN _ _ _ 0%nat 0%nat); [reflexivity|lia|]. cbn [Nat.add].
  destruct (at1 (iq_dirs (iw_q w2)) 0) as [d|]; [|reflexivity]. cbn [bind]. destruct (at1 (iq_amp (iw_q w2)) 0) as [ar|]; [|reflexivity]. cbn [bind].
  apply (CN _ _ _ 0%nat (iq_nbFreq (iw_q w1))); [lia|]. cbn [Nat.add]. destruct (at1 (iq_ks (iw_q w2)) (iq_nbFreq (iw_q w1))); [|reflexivity]. cbn [bind]. destruct (at1 ar (iq_nbFreq (iw_q w1))); [|reflexivity]. cbn [bind].
  assert (PN : at2 (iq_phases (iw_q w2)) 0 (iq_nbFreq (iw_q w1)) = None).
  { unfold at2. destruct (at1 (iq_phases (iw_q w2)) 0) as [pr|] eqn:PE; [|reflexivity]. cbn [bind]. unfold at1. apply nth_error_None. rewrite S9 in PE. apply nth_error_In in PE. rewrite (T7 pr PE). lia. }
  rewrite PN. reflexivity.
Qed.
(** A history with Initialize: two frequencies on an infinite depth *)
Definition deep : sea := Sea true 0 1025 (981 / 100) None.
Lemma deep_ok fuel tg junk rnd : exists w, i_run fuel tg (I_make deep junk) ([(deep, IFreq 1 2 2)] ++ [(deep, IInit rnd)]) = Ok w /\ sp_dir (iw_spec w) = None /\ iq_nbFreq (iw_q w) = 2%nat.
Proof.
  cbn [app i_run i_op I_make]. assert (F : exists w1, SetWaveFrequencies fuel deep (I_make deep junk) 1 2 2 = Ok w1 /\ iw_min w1 = 1 /\ iw_max w1 = 2 /\ iw_file w1 = false /\ iq_dirs (iw_q w1) = [] /\ iq_nbFreq (iw_q w1) = 2%nat /\ iw_spec w1 = default_spectrum).
  { eexists. unfold SetWaveFrequencies. destruct (Rlt_dec 0 1); [|lra]. destruct (Rle_dec 1 2); [|lra]. cbn. spl; reflexivity. }
  destruct F as [w1 [-> [M1 [M2 [FF [DD [NF SPE]]]]]]]. cbn [rbind]. unfold I_initialize. cbv zeta. rewrite FF. 
  change (iq_dirs (set_base (iw_q w1) (VF (vf_kind (iq_vf (iw_q w1))) (b_inf (base_init deep (iq_b (iw_q w1))))) (base_init deep (iq_b (iw_q w1))))) with (iq_dirs (iw_q w1)). rewrite DD, M1, M2. destruct (Req_EM_T 1 0); [lra|]. cbn [rbind fst snd].
  cbn [iq_nbFreq set_dirs set_base]. rewrite NF. unfold SetWaveFrequencies. destruct (Rlt_dec 0 1); [|lra]. destruct (Rle_dec 1 2); [|lra]. cbn [Nat.eqb rbind iw_q upd_q iq_b set_dirs set_base base_init b_inf s_inf deep]. cbv zeta. cbn [iq_dirs set_freqs set_dirs set_base iw_spec upd_q]. rewrite SPE.
  rewrite (amps2 default_spectrum (linspace 1 2 2) [iw_mean w1] [1]); [|discriminate|cbn; lia|discriminate|cbn; lia|cbn; auto]. cbn [rbind]. eexists. split; [reflexivity|]. split; reflexivity.
Qed.
Example C64_case : forall junk rnd, exists w, i_run 0 (fun x => x) (I_make deep junk) ([(deep, IFreq 1 2 2)] ++ [(deep, IInit rnd)]) = Ok w /\ tables_fit (iw_q w).
Proof.
  intros junk rnd. destruct (deep_ok 0 (fun x => x) junk rnd) as [w [E _]]. exists w. split; [exact E|].
  refine (proj1 (C64_ready _ _ _ _ _ _ _ _ _ _ _ E)); [constructor; [exact I|constructor]|cbn; lra|cbn; discriminate].
Qed.

(** ** C65 *)
(** Writing an initialised field and loading it into another one, with the same stretching and surroundings:
    the same wave field at every time *)
Theorem C65_round_trip : forall fuel tgamma s0 junk l s rnd w, List.Forall own_call l -> i_run fuel tgamma (I_make s0 junk) (l ++ [(s, IInit rnd)]) = Ok w ->
  forall w', vf_kind (iq_vf (iw_q w')) = vf_kind (iq_vf (iw_q w)) -> (s_ramp s = None -> b_ramp (iq_b (iw_q w')) = b_ramp (iq_b (iw_q w))) -> (s_inf s = true -> b_depth (iq_b (iw_q w')) = b_depth (iq_b (iw_q w))) ->
  exists w1, LoadJSON w' (WriteToJSON w) = Ok w1 /\ forall fuel' rnd', exists w2, I_initialize fuel' rnd' s w1 = Ok w2 /\ forall t, I_update s (iw_q w2) t = I_update s (iw_q w) t.
Proof.
  intros fuel tg s0 junk l s rnd w O H w' VK RA DE. rewrite run_app in H. destruct (i_run fuel tg (I_make s0 junk) l) as [w0| | | |] eqn:E; cbn [rbind] in H; try discriminate. cbn in H.
  destruct (I_initialize fuel rnd s w0) as [w1'| | | |] eqn:IE; cbn in H; try discriminate. injection H as ->.
  pose proof (run_config _ _ _ _ _ (make_config s0 junk) O E) as K. pose proof (init_inv _ _ _ _ _ K IE) as [K1 [TF [NF [_ [_ [_ [_ [_ [_ [_ [_ [_ [VE [BE N0]]]]]]]]]]]]]].
  destruct TF as [T1 [T2 _]]. unfold LoadJSON, WriteToJSON. cbv zeta. cbn [d_freqs d_dirs d_ks d_mean d_amp d_phases].
  rewrite (vat_ok (iq_freqs (iw_q w)) 0 0), (vat_ok (iq_freqs (iw_q w)) (length (iq_freqs (iw_q w)) - 1) 0) by lia. cbn [rbind]. eexists. split; [reflexivity|]. intros fuel' rnd'. unfold I_initialize. cbv zeta. cbn [iw_file rbind]. eexists. split; [reflexivity|].
  intros t. unfold I_update. cbn. rewrite VK, T1, T2, VE, BE. unfold base_update, base_init. cbn. rewrite BE in RA, DE. cbn in RA, DE. f_equal. destruct (s_inf s); [rewrite DE by reflexivity|]; (destruct (s_ramp s); [reflexivity|]; rewrite RA by reflexivity; reflexivity).
Qed.
(** The optimised field uses the amplitudes of its own spectrum after loading a file *)
Definition file_document : document := Doc [1] [100 / 981] [0] 0 [[1000]] [[PI / 2]].
Theorem C131_optim_refuted : forall junk o, io_w o = I_make deep junk -> exists w1, LoadJSON (io_w o) file_document = Ok w1 /\ forall fuel rnd, exists w2 o2,
  I_initialize fuel rnd deep w1 = Ok w2 /\ IO_initialize fuel rnd deep (IO w1 (io_cos o) (io_sin o) (io_aexp o) (io_exp o)) = Ok o2 /\ IGetElevation (iw_q w2) 0 0 NWU = Some 1000 /\ exists e, IOGetElevation o2 0 0 NWU = Some e /\ e < 100.
Proof.
  intros junk o OW. rewrite OW. eexists. split; [reflexivity|]. intros fuel rnd.
  set (S1 := Eval default_spectrum 1). assert (SB : 0 <= S1 <= 200).
  { unfold S1, default_spectrum. assert (WP : 0 < 2 * PI / 9) by (apply wp_pos; lra). split; [apply (proj2 (C41_nonneg 3 9 1 ltac:(lra) ltac:(lra)) (33 / 10)); lra|].
    rewrite js_dens by lra. set (wp := 2 * PI / 9) in *. destruct (ln_ten (33 / 10) ltac:(lra)) as [L1 L2]. pose proof PI_close as [P1 P2]. pose proof (four_pos wp WP).
    destruct (dens_bounds (3 * 3 / 16) (5 / 4 * (wp * wp * wp * wp)) wp 1 ltac:(lra) WP ltac:(lra) ltac:(lra)) as [[D1 D2] _].
    assert (W7 : 2 / 3 < wp) by (unfold wp; lra). assert (D3 : 20 * (3 * 3 / 16) / wp <= 17). { apply Rmult_le_reg_r with wp; [exact WP|]. replace (20 * (3 * 3 / 16) / wp * wp) with (20 * (3 * 3 / 16)) by (field; lra). lra. }
    pose proof sigma_bounds as [SL SR]. destruct (hj_bounds (1 - 287 / 1000 * ln (33 / 10)) (ln (33 / 10)) wp (if Rle_dec 1 wp then SIGMA2_1_left else SIGMA2_1_right) 1 ltac:(lra) ltac:(lra) L2 WP ltac:(destruct (Rle_dec 1 wp); lra)) as [[B1 B2] _].
    set (d := dens _ _ _) in *. set (h := hj _ _ _ _ _) in *. assert (0 <= h <= 10) by lra. assert (d * h <= 17 * 10) by (apply Rmult_le_compat; lra). lra. }
  assert (AM : GetWaveAmplitudes2 default_spectrum [1] [0] = Ok [[sqrt (2 * S1 * 1 * 1 * 1)]]) by reflexivity. clearbody S1.
  assert (SQ : sqrt (2 * S1 * 1 * 1 * 1) < 100). { rewrite <- (sqrt_square 100) by lra. apply sqrt_lt_1; lra. }
  eexists. eexists. split; [reflexivity|]. split; [unfold IO_initialize, I_initialize; cbv zeta; cbn [iw_file io_w rbind iw_spec upd_q I_make iw_q I_update iq_freqs iq_dirs set_base file_document d_freqs d_dirs]; rewrite AM; reflexivity|].
  split.
  - match goal with |- IGetElevation ?q _ _ _ = _ => assert (TF : tables_fit q) by (unfold tables_fit; cbn; spl; try reflexivity; intros r [<-|[]]; reflexivity); rewrite (I_el q TF) end.
    f_equal. unfold I_eta_val, I_A, I_th, th, qamp, qk, qfreq, qdir, qphi. cbn. rewrite Rmult_0_r, !Rmult_0_l, Rplus_0_l, Rmult_0_r, Rminus_0_r, Rplus_0_l, sin_PI2. ring.
  - match goal with |- exists e, IOGetElevation ?o2 _ _ _ = _ /\ _ => set (q2 := iw_q (io_w o2)); set (o3 := IO (upd_q (io_w o2) (set_amp q2 [[sqrt (2 * S1 * 1 * 1 * 1)]])) (io_cos o2) (io_sin o2) (io_aexp o2) (io_exp o2)); change (IOGetElevation o2 0 0 NWU) with (IOGetElevation o3 0 0 NWU) end.
    assert (CF : caches_fresh o3).
    { unfold caches_fresh. cbv zeta. spl.
      - intros i Hi. cbn in Hi. assert (i = 0%nat) by lia. subst i. exists 0. spl; reflexivity.
      - intros i j Hi Hj. cbn in Hi, Hj. assert (i = 0%nat) by lia. assert (j = 0%nat) by lia. subst i j. exists [sqrt (2 * S1 * 1 * 1 * 1)], (sqrt (2 * S1 * 1 * 1 * 1)), (PI / 2). spl; reflexivity.
      - intros j Hj. cbn in Hj. assert (j = 0%nat) by lia. subst j. exists 1. spl; reflexivity. }
    unfold IOGetElevation. rewrite (fresh_elevation o3 0 0 NWU CF) by (intros; cbn; lia). fold (IGetElevation (iw_q (io_w o3)) 0 0 NWU).
    assert (TF : tables_fit (iw_q (io_w o3))) by (unfold tables_fit; cbn; spl; try reflexivity; intros r [<-|[]]; reflexivity). rewrite (I_el _ TF). eexists. split; [reflexivity|].
    unfold I_eta_val, I_A, I_th, th, qamp, qk, qfreq, qdir, qphi. cbn. rewrite Rmult_0_r, !Rmult_0_l, Rplus_0_l, Rmult_0_r, Rminus_0_r, Rplus_0_l, sin_PI2. lra.
Qed.

(** ** C61, irregular field *)
(** After Initialize and after every step (Update, StepFinalize) the optimised irregular field gives the
    elevation of the plain one in the same state *)
Theorem C61_irregular : forall fuel tgamma s0 junk l s rnd steps w o o1 o2, List.Forall own_call l -> i_run fuel tgamma (I_make s0 junk) l = Ok w -> io_w o = w ->
  IO_initialize fuel rnd s o = Ok o1 -> io_steps o1 steps = Ok o2 ->
  I_initialize fuel rnd s w = Ok (io_w o1) /\ forall x y fc, IOGetElevation o2 x y fc = IGetElevation (iw_q (io_w o2)) x y fc.
Proof.
  intros fuel tg s0 junk l s rnd steps w o o1 o2 O H OW IE ST. pose proof (run_config _ _ _ _ _ (make_config s0 junk) O H) as K. rewrite <- OW in K.
  destruct (io_init_fresh _ _ _ _ _ K IE) as [F [N IE2]]. rewrite <- OW. split; [exact IE2|]. intros x y fc. destruct (steps_fresh _ _ _ F ST) as [F2 N2].
  unfold IOGetElevation. rewrite (fresh_elevation o2 x y fc F2) by (intros; congruence). reflexivity.
Qed.
