(** Lemmas about spectra: energy, peak, discretisation, bisection *)
From Coq Require Import Reals List Lra Lia Psatz Arith ZArith.
From Coquelicot Require Import Coquelicot.
From Verif Require Import GeoModel DispModel WavModel WavSpec WavProofs SeaModel SeaSpec.
Import ListNotations.
Open Scope R_scope.

(** ** Energy *)
Definition prim (E c w : R) : R := E * exp (- c / (w * w * w * w)).
Definition dens (E c w : R) : R := E * (4 * c / (w * w * w * w * w)) * exp (- c / (w * w * w * w)).
Lemma prim_D E c w : w <> 0 -> is_derive (prim E c) w (dens E c w).
Proof.
  intros W. unfold prim, dens. auto_derive; [repeat (apply Rmult_integral_contrapositive_currified; auto)|]. unfold Rdiv. field. auto.
Qed.
Lemma dens_cont E c w : w <> 0 -> continuous (dens E c) w.
Proof. intros W. apply (ex_derive_continuous (V := R_NormedModule)). unfold dens. auto_derive. repeat split; repeat (apply Rmult_integral_contrapositive_currified; auto). Qed.
Lemma dens_band E c a b : 0 < a -> a <= b -> is_RInt (dens E c) a b (prim E c b - prim E c a).
Proof.
  intros A B. apply (is_RInt_derive (prim E c)).
  - intros x X. rewrite Rmin_left in X by lra. apply prim_D. apply Rgt_not_eq. lra.
  - intros x X. rewrite Rmin_left in X by lra. apply dens_cont. lra.
Qed.
Lemma prim_inf E c : filterlim (prim E c) (Rbar_locally p_infty) (locally E).
Proof.
  assert (L : is_lim (fun w => E * exp (- c / (w * w * w * w))) p_infty (E * exp 0)); [|rewrite exp_0, Rmult_1_r in L; exact L].
  apply (is_lim_comp_continuous (fun w => - c / (w * w * w * w)) (fun x => E * exp x) p_infty 0).
  2:{ apply (ex_derive_continuous (V := R_NormedModule)). auto_derive. exact I. }
  replace (Finite 0) with (Rbar_mult (- c) (Rbar_inv p_infty)) by (cbn; f_equal; ring).
  unfold Rdiv. apply is_lim_scal_l. apply is_lim_inv; [|discriminate].
  assert (I1 : is_lim (fun y => y) p_infty p_infty) by apply is_lim_id.
  assert (I2 : is_lim (fun y => y * y) p_infty p_infty) by (apply (is_lim_mult _ _ p_infty p_infty p_infty I1 I1); reflexivity).
  assert (I3 : is_lim (fun y => y * y * y) p_infty p_infty) by (apply (is_lim_mult _ _ p_infty p_infty p_infty I2 I1); reflexivity).
  apply (is_lim_mult _ _ p_infty p_infty p_infty I3 I1); reflexivity.
Qed.
Lemma prim_zero E c : 0 < c -> filterlim (prim E c) (at_right 0) (locally 0).
Proof.
  intros Hc. unfold prim. apply filterlim_locally. intros eps.
  (* |E exp(-c/w^4)| <= |E| w^4/c <= |E| w / c for w < 1 *)
  assert (P : 0 < Rmin 1 (eps * c / (Rabs E + 1))). { apply Rmin_pos; [lra|]. apply Rdiv_lt_0_compat; [apply Rmult_lt_0_compat; [apply cond_pos|exact Hc]|]. pose proof (Rabs_pos E). lra. }
  exists (mkposreal _ P). intros w Bw Wp. unfold ball in Bw. cbn in Bw. unfold AbsRing_ball, abs, minus, plus, opp in Bw. cbn in Bw.
  rewrite Ropp_0, Rplus_0_r, Rabs_pos_eq in Bw by lra.
  assert (W1 : w < 1) by (apply Rlt_le_trans with (1 := Bw); apply Rmin_l). assert (W2 : w < eps * c / (Rabs E + 1)) by (apply Rlt_le_trans with (1 := Bw); apply Rmin_r).
  unfold ball. cbn. unfold AbsRing_ball, abs, minus, plus, opp. cbn. rewrite Ropp_0, Rplus_0_r, Rabs_mult, (Rabs_pos_eq (exp _)) by (left; apply exp_pos).
  set (u := c / (w * w * w * w)). assert (W4 : 0 < w * w * w * w) by (repeat apply Rmult_lt_0_compat; auto).
  assert (U : 0 < u) by (apply Rdiv_lt_0_compat; auto).
  assert (X : exp (- u) < / u). { rewrite exp_Ropp. apply Rinv_lt_contravar; [apply Rmult_lt_0_compat; [auto|apply exp_pos]|]. pose proof (exp_ineq1 u). lra. }
  replace (- c / (w * w * w * w)) with (- u) by (unfold u; field; lra).
  assert (Iu : / u <= w / c). { unfold u. replace (/ (c / (w * w * w * w))) with (w * w * w * w / c) by (field; split; lra). apply Rmult_le_compat_r; [left; apply Rinv_0_lt_compat; lra|].
    assert (w * w <= 1) by nra. assert (w * w * w <= 1) by nra. nra. }
  pose proof (Rabs_pos E). apply Rle_lt_trans with (Rabs E * (w / c)); [apply Rmult_le_compat_l; lra|].
  apply Rmult_lt_compat_r with (r := Rabs E + 1) in W2; [|lra]. replace (eps * c / (Rabs E + 1) * (Rabs E + 1)) with (eps * c) in W2 by (field; lra).
  apply Rmult_lt_reg_r with c; [exact Hc|]. replace (Rabs E * (w / c) * c) with (Rabs E * w) by (field; lra). pose proof (cond_pos eps). nra.
Qed.
Lemma dens_energy E c : 0 < c -> zero_moment (dens E c) E.
Proof.
  intros Hc. unfold zero_moment. replace E with (minus E 0) at 2 by (unfold minus, plus, opp; cbn; ring).
  apply (is_RInt_gen_ext (Derive (prim E c))).
  - exists (fun x => 0 < x) (fun y => 0 < y).
    + exists (mkposreal 1 Rlt_0_1). intros; auto.
    + exists 0. auto.
    + intros x y X Y z [Z _]. apply is_derive_unique. apply prim_D. cbn in Z. assert (0 < Rmin x y) by (apply Rmin_pos; auto). lra.
  - assert (Pos : filter_prod (at_right 0) (Rbar_locally p_infty) (fun ab => forall x, Rmin (fst ab) (snd ab) <= x <= Rmax (fst ab) (snd ab) -> 0 < x)).
    { exists (fun x => 0 < x) (fun y => 0 < y). + exists (mkposreal 1 Rlt_0_1). intros; auto. + exists 0. auto.
      + intros x y X Y z [Z _]. cbn in Z. assert (0 < Rmin x y) by (apply Rmin_pos; auto). lra. }
    apply is_RInt_gen_Derive.
    + revert Pos. apply filter_imp. intros ab H x X. eexists. apply prim_D. specialize (H x X). lra.
    + revert Pos. apply filter_imp. intros ab H x X. specialize (H x X).
      apply continuous_ext_loc with (dens E c); [|apply dens_cont; lra].
      exists (mkposreal x H). intros y Y. unfold ball in Y. cbn in Y. unfold AbsRing_ball, abs, minus, plus, opp in Y. cbn in Y. apply Rabs_def2 in Y. symmetry. apply is_derive_unique. apply prim_D. apply Rgt_not_eq. lra.
    + apply prim_zero. exact Hc.
    + apply prim_inf.
Qed.
(** ** Peak *)
Lemma ln_le_sub x : 0 < x -> ln x <= x - 1.
Proof. intros H. destruct (Req_dec x 1) as [->|N]; [rewrite ln_1; lra|]. pose proof (exp_ineq1 (x - 1)) as E. left. apply exp_lt_inv. rewrite exp_ln by auto. assert (x - 1 <> 0) by lra. specialize (E H0). lra. Qed.
Lemma peak_ineq y : 0 < y -> y * y * y * y * y * exp (- (5 / 4) * (y * y * y * y - 1)) <= 1.
Proof.
  intros H. assert (Y4 : 0 < y * y * y * y) by (repeat apply Rmult_lt_0_compat; auto).
  assert (L : y * y * y * y * y = exp (5 * ln y)). { replace (5 * ln y) with (ln y + (ln y + (ln y + (ln y + ln y)))) by ring. rewrite !exp_plus, !exp_ln by auto. ring. }
  rewrite L, <- exp_plus. rewrite <- exp_0. assert (Q : ln (y * y * y * y) <= y * y * y * y - 1) by (apply ln_le_sub; auto).
  rewrite !ln_mult in Q; auto; try (repeat apply Rmult_lt_0_compat; auto).
  set (z := y * y * y * y) in *. apply Rnot_lt_le. intros F. apply exp_lt_inv in F. rewrite ?exp_0 in F. lra.
Qed.
Lemma dens_peak E c w0 w : 0 <= E -> 0 < w0 -> 0 < w -> c = 5 / 4 * (w0 * w0 * w0 * w0) -> dens E c w <= dens E c w0.
Proof.
  intros HE W0 W Hc. set (y := w0 / w). assert (Y : 0 < y) by (apply Rdiv_lt_0_compat; auto). pose proof (peak_ineq y Y) as P.
  assert (C : 0 < c) by (rewrite Hc; apply Rmult_lt_0_compat; [lra|]; repeat apply Rmult_lt_0_compat; auto).
  assert (Eq : dens E c w = dens E c w0 * (y * y * y * y * y * exp (- (5 / 4) * (y * y * y * y - 1)))).
  { unfold dens. replace (exp (- c / (w * w * w * w))) with (exp (- c / (w0 * w0 * w0 * w0)) * exp (- (5 / 4) * (y * y * y * y - 1))).
    - unfold y. field. split; lra.
    - rewrite <- exp_plus. f_equal. rewrite Hc. unfold y. field. split; lra. }
  rewrite Eq. assert (0 <= dens E c w0).
  { unfold dens. apply Rmult_le_pos; [apply Rmult_le_pos; [exact HE|]|left; apply exp_pos]. apply Rdiv_le_0_compat; [lra|]. repeat apply Rmult_lt_0_compat; auto. }
  set (q := y * y * y * y * y * _) in *. nra.
Qed.
