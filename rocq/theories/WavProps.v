(** Theorems about the Airy wave fields: C37 (kinematics), C38 (frame conventions), C39 (stretching),
    C43 (directions), C61 (optimised fields), C62 (wave period) *)
From Coq Require Import Reals List Lra Lia Psatz FunctionalExtensionality.
From Coquelicot Require Import Coquelicot.
From Verif Require Import GeoModel GeoSpec GeoProofs GeoProofs2 DispModel DispSpec DispProofs DispProps WavModel WavSpec WavProofs WavProofs2 WavProofs3.
Import ListNotations.
Open Scope R_scope.

(** ** C37 *)
(** Regular field, no stretching, no active ramp: for every height, wave number, frequency, direction and
    every time the velocity is divergence free and irrotational, the acceleration is its rate, the water
    follows the surface, and (finite depth profile) nothing goes through the bed. *)
Theorem C37_regular : forall s w, rw_k w <> 0 -> vf_kind (rw_vf w) = SNone -> s_ramp s = None ->
  let h := if b_inf (rw_b w) then b_depth (rw_b w) else s_depth s in
  (vf_inf (rw_vf w) = false -> h <> 0) ->
  let eta := fun x y t => RGetElevation (R_update s w t) x y NWU in
  let U := fun x y z t => RGetVelocity (R_update s w t) x y z NWU in
  let A := fun x y z t => RGetAcceleration (R_update s w t) x y z NWU in
  (forall t, divergence_free (fun x y z => U x y z t)) /\ (forall t, irrotational (fun x y z => U x y z t)) /\
  rate_of U A /\ follows_surface eta U /\ (vf_inf (rw_vf w) = false -> tight_bed h U).
Proof.
  intros s w K N Rm h Hh eta U A.
  pose (g0 := rw_omega w * rw_omega w / rw_k w).
  assert (Dp : dispersion true g0 h (rw_omega w) (rw_k w)) by (unfold dispersion, g0; field; exact K).
  pose proof (comp_linear (vf_inf (rw_vf w)) true (rw_height w * b_ramp (rw_b w)) (rw_k w) (rw_omega w) (rw_dir w) 0 h 1 g0 K Hh Dp) as L.
  eapply linear_ext with (e' := eta) (U' := U) (A' := A) in L; [| | | |intros; reflexivity].
  - destruct L as [L1 L2 L3 L4 L5 L6]. split; [exact L1|]. split; [exact L2|]. split; [exact L3|]. split; [exact L4|]. intros B. apply L5. rewrite B. reflexivity.
  - intros x y t. symmetry. apply (R_component s w t K N Rm).
  - intros x y z t. symmetry. apply (R_component s w t K N Rm).
  - intros x y z t. symmetry. apply (R_component s w t K N Rm).
Qed.
(** The pressure balances the acceleration when the wave number satisfies the dispersion relation *)
Theorem C37_regular_pressure : forall s w, rw_k w <> 0 -> vf_kind (rw_vf w) = SNone -> s_ramp s = None ->
  let h := if b_inf (rw_b w) then b_depth (rw_b w) else s_depth s in
  (vf_inf (rw_vf w) = false -> h <> 0) ->
  dispersion (b_inf (rw_b w)) (b_grav (rw_b w)) h (rw_omega w) (rw_k w) ->
  pressure_balances (b_dens (rw_b w)) (fun x y z t => RGetPressure (R_update s w t) x y z NWU)
    (fun x y z t => RGetAcceleration (R_update s w t) x y z NWU).
Proof.
  intros s w K N Rm h Hh Dp.
  pose proof (comp_linear (vf_inf (rw_vf w)) (b_inf (rw_b w)) (rw_height w * b_ramp (rw_b w)) (rw_k w) (rw_omega w) (rw_dir w) 0 h (b_dens (rw_b w)) (b_grav (rw_b w)) K Hh Dp) as L.
  destruct L as [_ _ _ _ _ L].
  intros x y z t. specialize (L x y z t). destruct L as (L1 & L2 & L3).
  assert (E : forall x y z, RGetPressure (R_update s w t) x y z NWU =
     cpre (rw_height w * b_ramp (rw_b w)) (rw_k w) (rw_omega w) (rw_dir w) 0 (fun z : R => Ez (vf_inf (rw_vf w)) z (rw_k w) h) (b_dens (rw_b w) * b_grav (rw_b w) * (if b_inf (rw_b w) then 1 else tanh (rw_k w * h))) x y z t)
    by (intros; apply (R_component s w t K N Rm)).
  assert (EA : RGetAcceleration (R_update s w t) x y z NWU = cacc (rw_height w * b_ramp (rw_b w)) (rw_k w) (rw_omega w) (rw_dir w) 0 (fun z : R => Ez (vf_inf (rw_vf w)) z (rw_k w) h) (fun z : R => diffEz (vf_inf (rw_vf w)) z (rw_k w) h) x y z t)
    by (apply (R_component s w t K N Rm)).
  rewrite EA. split; [|split].
  - apply (is_derive_ext _ _ x _ (fun u => eq_sym (E u y z)) L1).
  - apply (is_derive_ext _ _ y _ (fun u => eq_sym (E x u z)) L2).
  - apply (is_derive_ext _ _ z _ (fun u => eq_sym (E x y u)) L3).
Qed.
(** A field made with the API in deep water satisfies the hypotheses exactly *)
Theorem C37_deep_api : forall fuel s junk H T a u fc dc inp w, s_inf s = true -> 0 < s_grav s -> 0 < T ->
  SetWavePeriod fuel s (SetWaveHeight (R_make s junk) H) T = Some w ->
  let w1 := R_init s (SetDirection inp w a u fc dc) in
  0 < rw_k w1 /\ vf_kind (rw_vf w1) = SNone /\ vf_inf (rw_vf w1) = true /\ rw_height w1 = H /\ rw_omega w1 = 2 * PI / T /\
  b_dens (rw_b w1) = s_dens s /\ forall h, dispersion (b_inf (rw_b w1)) (b_grav (rw_b w1)) h (rw_omega w1) (rw_k w1).
Proof.
  intros fuel s junk H T a u fc dc inp w I G P E. unfold SetWavePeriod in E. cbn [rw_b SetWaveHeight R_make base_make b_inf] in E. rewrite I in E. inversion E; subst w; clear E.
  cbn. rewrite ?I. assert (0 < 2 * PI / T) by (apply Rdiv_lt_0_compat; [pose proof PI_RGT_0; lra|auto]).
  split; [apply Rdiv_lt_0_compat; [apply Rmult_lt_0_compat; auto|auto]|]. do 5 (split; [reflexivity|]). intros h. unfold dispersion. field. lra.
Qed.
(** In finite depth SetWavePeriod switches to the deep water profile when 3/k < h.  The flow through the bed
    of a field made with the API is then bounded by exp(-3) times the vertical speed at the surface. *)
Theorem C37_bed_api : forall fuel s junk H T a u fc dc inp w, s_inf s = false -> 0 < s_grav s -> 0 < s_depth s -> 0 < T -> s_ramp s = None ->
  SetWavePeriod fuel s (SetWaveHeight (R_make s junk) H) T = Some w ->
  let w1 := R_init s (SetDirection inp w a u fc dc) in
  forall x y t, Rabs (vz (RGetVelocity (R_update s w1 t) x y (- s_depth s) NWU)) <= 2 * PI / T * Rabs H * exp (- 3).
Proof.
  intros fuel s junk H T a u fc dc inp w I G P PT Rm E w1 x y t. set (h := s_depth s) in *.
  unfold SetWavePeriod in E. cbn [rw_b SetWaveHeight R_make base_make b_inf] in E. rewrite I in E.
  set (om := 2 * PI / T) in *. assert (Om : 0 < om) by (unfold om; apply Rdiv_lt_0_compat; [pose proof PI_RGT_0; lra|auto]).
  destruct (SolveWaveDispersionRelation fuel h om (s_grav s)) as [k|] eqn:Sv; cbv zeta in E; fold om in E; fold h in E; rewrite Sv in E; [|discriminate E].
  destruct (C40_residual fuel h om (s_grav s) k G P Sv) as (Lk & _).
  assert (Hk : 0 < k). { apply Rlt_le_trans with (om * om / s_grav s); [apply Rdiv_lt_0_compat; [apply Rmult_lt_0_compat; auto|auto]|exact Lk]. }
  inversion E; subst w; clear E. set (inf := if Rlt_dec (3 / k) h then true else false) in *.
  assert (K1 : rw_k w1 <> 0) by (cbn; lra).
  destruct (R_component s w1 t K1 eq_refl Rm) as (_ & Ev & _). rewrite Ev. clear Ev.
  unfold cvel. cbn [vz]. cbn. rewrite I. fold h.
  replace (H * 1) with H by ring. set (c := cos _). assert (Cb : Rabs c <= 1) by (apply Rabs_le; apply COS_bound).
  assert (Ex : 0 < exp (- 3)) by apply exp_pos.
  rewrite Rabs_Ropp, !Rabs_mult.
  assert (B : Rabs (om / k) * Rabs (diffEz inf (- h) k h) <= om * exp (- 3)).
  { unfold inf. destruct (Rlt_dec (3 / k) h) as [Q|Q].
    - cbn. rewrite <- Rabs_mult. replace (om / k * (k * exp (k * - h))) with (om * exp (k * - h)) by (field; lra).
      rewrite Rabs_pos_eq; [|apply Rmult_le_pos; [lra|left; apply exp_pos]]. apply Rmult_le_compat_l; [lra|]. left. apply exp_increasing.
      apply Rmult_lt_compat_r with (r := k) in Q; [|lra]. replace (3 / k * k) with 3 in Q by (field; lra). lra.
    - rewrite diffEz_bed, Rabs_R0, Rmult_0_r. apply Rmult_le_pos; lra. }
  assert (0 <= Rabs H) by apply Rabs_pos. assert (0 <= Rabs c) by apply Rabs_pos.
  apply Rle_trans with (om * exp (- 3) * (Rabs H * 1)); [|lra].
  apply Rmult_le_compat; [apply Rmult_le_pos; apply Rabs_pos|apply Rmult_le_pos; auto|exact B|apply Rmult_le_compat_l; auto].
Qed.
(** ... but it does not vanish: depth 4, period 2 pi, gravity 1. *)
Theorem C111_bed_refuted : exists fuel s w, s_inf s = false /\ s_depth s = 4 /\ s_ramp s = None /\
  SetWavePeriod fuel s (SetWaveHeight (R_make s (WB 1 0 0 false 1 1)) 1) (2 * PI) = Some w /\
  vz (RGetVelocity (R_update s (R_init s w) 0) 0 0 (- 4) NWU) <> 0.
Proof.
  set (s := Sea false 4 1 1 None). pose proof PI_RGT_0 as PP.
  destruct (C40_ends 4 (2 * PI / (2 * PI)) 1 ltac:(lra)) as (k & n & N). specialize (N n (le_n n)).
  destruct (C40_residual n 4 (2 * PI / (2 * PI)) 1 k ltac:(lra) ltac:(lra) N) as (Lk & _).
  replace (2 * PI / (2 * PI)) with 1 in Lk by (field; lra). assert (K1 : 1 <= k) by lra.
  exists n, s. eexists. split; [reflexivity|]. split; [reflexivity|]. split; [reflexivity|]. split.
  - unfold SetWavePeriod. cbn [rw_b SetWaveHeight R_make base_make b_inf s s_inf s_depth s_grav]. rewrite N. reflexivity.
  - match goal with |- vz (RGetVelocity (R_update s ?w0 0) _ _ _ _) <> 0 => set (w := w0) end.
    assert (Kw : rw_k w <> 0) by (cbn; lra). destruct (R_component s w 0 Kw eq_refl eq_refl) as (_ & Ev & _). rewrite Ev.
    unfold cvel. cbn [vz]. unfold w. cbn.
    assert (Q : 3 / k < 4). { apply Rmult_lt_reg_r with k; [lra|]. replace (3 / k * k) with 3 by (field; lra). lra. }
    destruct (Rlt_dec (3 / k) 4) as [_|]; [|contradiction]. cbn. unfold th. replace (k * (0 * cos 0 + 0 * sin 0) - 2 * PI / (2 * PI) * 0 + 0) with 0 by ring. rewrite cos_0.
    replace (2 * PI / (2 * PI) / k * (k * exp (k * -4)) * (1 * 1 * 1)) with (exp (k * -4)) by (field; lra). pose proof (exp_pos (k * -4)). intros Z. lra.
Qed.
(** With an active ramp the acceleration is not the rate of the velocity: the rate of the ramp is missing. *)
Theorem C111_ramp_refuted : exists s w, rw_k w <> 0 /\ vf_kind (rw_vf w) = SNone /\ s_ramp s = Some (fun t => t) /\
  ~ rate_of (fun x y z t => RGetVelocity (R_update s w t) x y z NWU) (fun x y z t => RGetAcceleration (R_update s w t) x y z NWU).
Proof.
  set (s := Sea true 0 1 1 (Some (fun t => t))). set (w := RW 1 (2 * PI) 1 1 0 (VF SNone true) (WB 1 0 0 true 1 1)).
  exists s, w. split; [cbn; lra|]. split; [reflexivity|]. split; [reflexivity|]. intros Hr.
  destruct (Hr (PI / 2) 0 0 0) as (D & _ & _).
  assert (E : forall t, vx (RGetVelocity (R_update s w t) (PI / 2) 0 0 NWU) = t * sin (PI / 2 - t)).
  { intros t. destruct (R_vel (R_update s w t) (PI / 2) 0 0 NWU) as (-> & _); [cbn; lra|]. unfold cvel_form, R_E. rewrite Eval5_none by reflexivity. cbn. unfold th.
    rewrite cos_0, sin_0. replace (exp (1 * 0)) with 1 by (rewrite Rmult_0_r, exp_0; reflexivity). replace (1 * (PI / 2 * 1 + 0 * 0) - 1 * t + 0) with (PI / 2 - t) by ring. ring. }
  assert (D2 : is_derive (fun t => t * sin (PI / 2 - t)) 0 1). { auto_derive; [exact I|]. replace (PI / 2 + - 0) with (PI / 2) by ring. rewrite sin_PI2. ring. }
  assert (D1 : is_derive (fun t => t * sin (PI / 2 - t)) 0 (vx (RGetAcceleration (R_update s w 0) (PI / 2) 0 0 NWU))) by (apply (is_derive_ext _ _ 0 _ E D)).
  assert (A0 : vx (RGetAcceleration (R_update s w 0) (PI / 2) 0 0 NWU) = 0).
  { destruct (R_vel (R_update s w 0) (PI / 2) 0 0 NWU) as (_ & ->); [cbn; lra|]. unfold cacc_form. cbn [vx]. cbn [rw_height w R_update rw_b base_update s s_ramp b_ramp]. ring. }
  rewrite A0 in D1. pose proof (is_derive_unique _ _ _ D1) as U1. pose proof (is_derive_unique _ _ _ D2) as U2. rewrite U1 in U2. lra.
Qed.
(** Irregular field: any number of directions and frequencies, any amplitudes and phases.  The queries are
    defined and the fields satisfy the linear equations. *)
Theorem C37_irregular : forall s w, tables_fit w -> vf_kind (iq_vf w) = SNone -> s_ramp s = None ->
  let h := if b_inf (iq_b w) then b_depth (iq_b w) else s_depth s in
  (vf_inf (iq_vf w) = false -> h <> 0) -> (forall k, In k (iq_ks w) -> k <> 0) ->
  exists eta U A,
    (forall x y t, IGetElevation (I_update s w t) x y NWU = Some (eta x y t)) /\
    (forall x y z t, IGetVelocity (I_update s w t) x y z NWU = Some (U x y z t)) /\
    (forall x y z t, IGetAcceleration (I_update s w t) x y z NWU = Some (A x y z t)) /\
    (forall t, divergence_free (fun x y z => U x y z t)) /\ (forall t, irrotational (fun x y z => U x y z t)) /\
    rate_of U A /\ follows_surface eta U /\ (vf_inf (iq_vf w) = false -> tight_bed h U) /\
    ((forall i k om, nth_error (iq_ks w) i = Some k -> nth_error (iq_freqs w) i = Some om -> dispersion (b_inf (iq_b w)) (b_grav (iq_b w)) h om k) ->
     exists p, (forall x y z t, IGetPressure (I_update s w t) x y z NWU = Some (p x y z t)) /\ pressure_balances (b_dens (iq_b w)) p A).
Proof.
  intros s w T N Rm h Hh Hk.
  assert (Tu : forall t, tables_fit (I_update s w t)) by (intros; exact T).
  assert (K : forall i, (i < iq_nbFreq w)%nat -> qk w i <> 0). { intros i Hi. apply Hk. apply nth_In. destruct T as (_ & _ & T3 & _). lia. }
  set (lF := seq 0 (iq_nbFreq w)). set (lD := seq 0 (iq_nbDir w)). set (inf := vf_inf (iq_vf w)).
  pose (a := fun i j => qamp w j i * b_ramp (iq_b w)).
  pose (ec := fun i j => ceta (a i j) (qk w i) (qfreq w i) (qdir w j) (qphi w j i)).
  pose (uc := fun i j => cvel (a i j) (qk w i) (qfreq w i) (qdir w j) (qphi w j i) (fun z => Ez inf z (qk w i) h) (fun z => diffEz inf z (qk w i) h)).
  pose (ac := fun i j => cacc (a i j) (qk w i) (qfreq w i) (qdir w j) (qphi w j i) (fun z => Ez inf z (qk w i) h) (fun z => diffEz inf z (qk w i) h)).
  pose (pc := fun rg i j => cpre (a i j) (qk w i) (qfreq w i) (qdir w j) (qphi w j i) (fun z => Ez inf z (qk w i) h) (rg i)).
  exists (fun x y t => rs lF (fun i => rs lD (fun j => ec i j x y t))), (fun x y z t => vs lF (fun i => vs lD (fun j => uc i j x y z t))),
    (fun x y z t => vs lF (fun i => vs lD (fun j => ac i j x y z t))).
  assert (Br : forall t, b_ramp (iq_b (I_update s w t)) = b_ramp (iq_b w)) by (intros; cbn; rewrite Rm; reflexivity).
  split; [|split; [|split]].
  - intros x y t. rewrite (I_el _ (Tu t)). f_equal. unfold I_eta_val. rewrite rs_swap. apply rs_ext. intros i _. apply rs_ext. intros j _.
    unfold I_A, I_th, ec, ceta, a. rewrite Br. cbn [NWUsign flip_in]. rewrite Rmult_1_r. reflexivity.
  - intros x y z t. destruct (I_vel _ (Tu t) K x y z NWU) as (-> & _). f_equal. apply vs_ext. intros i _. apply vs_ext. intros j _.
    unfold I_vform, cvel_form, uc, cvel, I_A, I_th, I_E, I_D, a. rewrite Br, Eval5_none, EvalDZ5_none by exact N. cbn [NWUsign flip_in]. cbn. fold h. fold inf.
    apply vec_eq; cbn [vx vy vz]; unfold qamp, qfreq, qdir, qk, qphi; cbn; ring.
  - intros x y z t. destruct (I_vel _ (Tu t) K x y z NWU) as (_ & ->). f_equal. apply vs_ext. intros i _. apply vs_ext. intros j _.
    unfold I_aform, cacc_form, ac, cacc, I_A, I_th, I_E, I_D, a. rewrite Br, Eval5_none, EvalDZ5_none by exact N. cbn [NWUsign flip_in]. cbn. fold h. fold inf.
    apply vec_eq; cbn [vx vy vz]; unfold qamp, qfreq, qdir, qk, qphi; cbn; ring.
  - assert (L : forall rho g (bi : nat -> bool), (forall i, (i < iq_nbFreq w)%nat -> dispersion (bi i) (g i) h (qfreq w i) (qk w i)) ->
      linear rho h (negb inf) (fun x y t => rs lF (fun i => rs lD (fun j => ec i j x y t))) (fun x y z t => vs lF (fun i => vs lD (fun j => uc i j x y z t)))
        (fun x y z t => vs lF (fun i => vs lD (fun j => ac i j x y z t)))
        (fun x y z t => rs lF (fun i => rs lD (fun j => pc (fun i => rho * g i * (if bi i then 1 else tanh (qk w i * h))) i j x y z t)))).
    { intros rho g bi Hd. apply linear_sum. intros i Hi. apply in_seq in Hi. apply linear_sum. intros j Hj. apply comp_linear; auto.
      - apply K. lia. - apply Hd. lia. }
    destruct (L 1 (fun i => qfreq w i * qfreq w i / qk w i) (fun _ => true)) as [L1 L2 L3 L4 L5 _].
    { intros i Hi. unfold dispersion. field. apply K. exact Hi. }
    split; [exact L1|]. split; [exact L2|]. split; [exact L3|]. split; [exact L4|]. split; [intros B; apply L5; rewrite ?B; reflexivity|].
    intros Hd. exists (fun x y z t => rs lF (fun i => rs lD (fun j => pc (fun i => b_dens (iq_b w) * b_grav (iq_b w) * (if b_inf (iq_b w) then 1 else tanh (qk w i * h))) i j x y z t))).
    split.
    + intros x y z t. rewrite (I_pre _ (Tu t)). f_equal. unfold I_pre_val. apply rs_ext. intros i _. apply rs_ext. intros j _.
      unfold pc, cpre, I_A, I_th, I_E, a. rewrite Br, Eval5_none by exact N. cbn [NWUsign flip_in]. cbn. fold h. fold inf. unfold qamp, qfreq, qdir, qk, qphi. cbn. rewrite Rmult_1_r. reflexivity.
    + destruct (L (b_dens (iq_b w)) (fun _ => b_grav (iq_b w)) (fun _ => b_inf (iq_b w))) as [_ _ _ _ _ L6].
      * intros i Hi. destruct T as (_ & T2 & T3 & _). apply (Hd i); apply nth_error_nth'; lia.
      * exact L6.
Qed.
(** Example: two directions, two frequencies, finite depth *)
Definition sample_irregular : iwq :=
  IQ 2 2 [0; PI / 2] [1; 2] [1; 4] [[1; 1]; [2; 3]] [[0; 1]; [2; 3]] (VF SNone false) (WB 1 0 10 false 1000 10).
Example C37_irregular_case : tables_fit sample_irregular /\ (forall k, In k (iq_ks sample_irregular) -> k <> 0) /\ vf_kind (iq_vf sample_irregular) = SNone.
Proof.
  split; [|split; [|reflexivity]].
  - unfold tables_fit. cbn. repeat split; intros r [<-|[<-|[]]]; reflexivity.
  - cbn. intros k [<-|[<-|[]]]; lra.
Qed.

(** ** C38 *)
(** Elevation: the answer in NED at the NED coordinates is the opposite of the NWU answer *)
Theorem C38_elevation : forall w x y, RGetElevation w x (- y) NED = - RGetElevation w x y NWU.
Proof. intros w x y. unfold RGetElevation. rewrite !R_cel, !pt_im. cbn [flip_in NWUsign]. rewrite Ropp_involutive. ring. Qed.
Theorem C38_elevation_irregular : forall w x y e, tables_fit w -> IGetElevation w x y NWU = Some e -> IGetElevation w x (- y) NED = Some (- e).
Proof.
  intros w x y e T H. rewrite (I_el w T) in H |- *. injection H as <-. f_equal. unfold I_eta_val, I_A. cbn [flip_in NWUsign]. rewrite Ropp_involutive.
  rewrite <- (Rmult_1_l (rs _ (fun j => rs _ (fun i => qamp w j i * 1 * _ * _)))), Ropp_mult_distr_l, <- rs_scal. apply rs_ext. intros j _. rewrite <- rs_scal. apply rs_ext. intros i _. ring.
Qed.
(** Velocity and acceleration: the conversion of the NWU answer, for points on the x axis or waves along
    it, with every stretching.  Partial: false elsewhere. *)
Theorem C112_velocity_partial : forall w x y z, rw_k w <> 0 -> y * sin (rw_dir w) = 0 ->
  RGetVelocity w x (- y) (- z) NED = convert NED (RGetVelocity w x y z NWU) /\
  RGetAcceleration w x (- y) (- z) NED = convert NED (RGetAcceleration w x y z NWU).
Proof.
  intros w x y z K H. destruct (R_vel w x (- y) (- z) NED K) as (-> & ->). destruct (R_vel w x y z NWU K) as (-> & ->).
  cbn [flip_in NWUsign]. rewrite !Ropp_involutive. unfold th. replace (- y * sin (rw_dir w)) with 0 by lra. rewrite H.
  unfold cvel_form, cacc_form, convert. cbn [vx vy vz]. split; apply vec_eq; cbn [vx vy vz]; ring.
Qed.
Theorem C112_velocity_irregular_partial : forall w x y z v a, tables_fit w -> (forall k, In k (iq_ks w) -> k <> 0) ->
  (forall d, In d (iq_dirs w) -> y * sin d = 0) -> IGetVelocity w x y z NWU = Some v -> IGetAcceleration w x y z NWU = Some a ->
  IGetVelocity w x (- y) (- z) NED = Some (convert NED v) /\ IGetAcceleration w x (- y) (- z) NED = Some (convert NED a).
Proof.
  intros w x y z v a T Hk Hd Hv Ha.
  assert (K : forall i, (i < iq_nbFreq w)%nat -> qk w i <> 0). { intros i Hi. apply Hk. apply nth_In. destruct T as (_ & _ & T3 & _). lia. }
  destruct (I_vel w T K x y z NWU) as (E1 & E2). destruct (I_vel w T K x (- y) (- z) NED) as (F1 & F2). rewrite Hv in E1. rewrite Ha in E2. injection E1 as ->. injection E2 as ->.
  assert (C : forall l f g, (forall i, In i l -> f i = convert NED (g i)) -> vs l f = convert NED (vs l g)).
  { induction l as [|i l IH]; intros f g H; cbn [vs].
    - unfold convert. cbn. f_equal; ring.
    - rewrite (H i) by (left; auto). rewrite (IH f g) by (intros; apply H; right; auto). unfold convert, vec_add. cbn. f_equal; ring. }
  assert (D : forall j, In j (seq 0 (iq_nbDir w)) -> - y * sin (qdir w j) = 0 /\ y * sin (qdir w j) = 0).
  { intros j Hj. apply in_seq in Hj. assert (y * sin (qdir w j) = 0). { apply Hd. apply nth_In. destruct T as (T1 & _). lia. } split; lra. }
  rewrite F1, F2. split; f_equal; apply C; intros i Hi; apply C; intros j Hj; destruct (D j Hj) as (D1 & D2);
    unfold I_vform, I_aform, cvel_form, cacc_form, I_A, I_th, th; cbn [flip_in NWUsign]; rewrite !Ropp_involutive, D1, D2; unfold convert; cbn [vx vy vz]; f_equal; ring.
Qed.
(** A wave of height 1 to the west (the y axis of NWU), deep water *)
Definition west_wave : rwf := RW 1 (2 * PI) 1 1 (PI / 2) (VF SNone true) (WB 1 0 0 true 1 1).
Lemma west_el x y : RComplexElevation west_wave x y NWU = pt 1 y.
Proof.
  rewrite R_cel. cbn. unfold th. rewrite cos_PI2, sin_PI2. f_equal; ring.
Qed.
(** Off the axis the NED velocity is that of another point: the y coordinate is reflected twice. *)
Theorem C112_velocity_refuted : exists w x y z, rw_k w <> 0 /\ RGetVelocity w x (- y) (- z) NED <> convert NED (RGetVelocity w x y z NWU).
Proof.
  exists west_wave, 0, (PI / 2), 0. assert (K : rw_k west_wave <> 0) by (cbn; lra). split; [exact K|].
  destruct (R_vel west_wave 0 (- (PI / 2)) (- 0) NED K) as (-> & _). destruct (R_vel west_wave 0 (PI / 2) 0 NWU K) as (-> & _).
  intros E. apply (f_equal vy) in E. unfold cvel_form, convert, R_E in E. rewrite !Eval5_none in E by reflexivity. cbn in E. unfold th in E.
  rewrite !Ropp_involutive, cos_PI2, sin_PI2 in E. replace (exp (1 * 0)) with 1 in E by (rewrite Rmult_0_r, exp_0; reflexivity).
  replace (1 * (0 * 0 + - (PI / 2) * 1) - 1 * 0 + 0) with (- (PI / 2)) in E by ring. replace (1 * (0 * 0 + PI / 2 * 1) - 1 * 0 + 0) with (PI / 2) in E by ring.
  rewrite sin_neg, sin_PI2 in E. lra.
Qed.
(** What the NED velocity without stretching is: the conversion of the velocity at the reflected point *)
Theorem C112_velocity_actual : forall w x y z, rw_k w <> 0 -> vf_kind (rw_vf w) = SNone ->
  RGetVelocity w x (- y) (- z) NED = convert NED (RGetVelocity w x (- y) z NWU).
Proof.
  intros w x y z K N. destruct (R_vel w x (- y) (- z) NED K) as (-> & _). destruct (R_vel w x (- y) z NWU K) as (-> & _).
  unfold R_E, R_D. rewrite !Eval5_none, !EvalDZ5_none by exact N. cbn [flip_in NWUsign]. rewrite !Ropp_involutive. unfold cvel_form, convert. apply vec_eq; cbn [vx vy vz]; ring.
Qed.
(** Pressure: a scalar, but the NED answer has the opposite sign, and depends on z as if z were NWU *)
Theorem C112_pressure_refuted : (exists w x y z, RGetPressure w x (- y) (- z) NED <> RGetPressure w x y z NWU) /\
  (forall w x y z, vf_kind (rw_vf w) = SNone -> RGetPressure w x (- y) z NED = - RGetPressure w x y z NWU).
Proof.
  split.
  - exists west_wave, 0, (PI / 2), 0. unfold RGetPressure, pressure. rewrite !R_cel, !pt_im, !Eval5_none by reflexivity. cbn. unfold th. rewrite cos_PI2, sin_PI2, !Ropp_involutive.
    replace (1 * (0 * 0 + PI / 2 * 1) - 1 * 0 + 0) with (PI / 2) by ring. rewrite sin_PI2. rewrite Ropp_0, Rmult_0_r, exp_0. lra.
  - intros w x y z N. unfold RGetPressure, pressure. rewrite !R_cel, !pt_im, !Eval5_none by exact N. cbn [flip_in NWUsign]. rewrite Ropp_involutive. destruct (b_inf (rw_b w)); ring.
Qed.
(** Queries with cut-off.  NWU: zero above the surface, the full velocity in the water. *)
Theorem C38_cutoff_nwu : forall w x y z,
  (RGetElevation w x y NWU < z -> cutoff_query (RGetElevation w) (RGetVelocity w) x y z true NWU = V 0 0 0) /\
  (z <= RGetElevation w x y NWU -> cutoff_query (RGetElevation w) (RGetVelocity w) x y z true NWU = RGetVelocity w x y z NWU).
Proof. intros w x y z. unfold cutoff_query. destruct (Rlt_dec (RGetElevation w x y NWU) z); split; intros; auto; lra. Qed.
(** NED: the other way round, for every field and every point: zero in the water, velocity in the air. *)
Theorem C112_cutoff_refuted : forall w x y z,
  (z < RGetElevation w x y NWU -> cutoff_query (RGetElevation w) (RGetVelocity w) x (- y) (- z) true NED = V 0 0 0) /\
  (RGetElevation w x y NWU < z -> cutoff_query (RGetElevation w) (RGetVelocity w) x (- y) (- z) true NED = RGetVelocity w x (- y) (- z) NED).
Proof. intros w x y z. unfold cutoff_query. rewrite C38_elevation. destruct (Rlt_dec (- RGetElevation w x y NWU) (- z)); split; intros; auto; lra. Qed.
Example C38_cutoff_case : - 1 < RGetElevation west_wave 0 (PI / 2) NWU /\ RGetVelocity west_wave 0 (PI / 2) (- 1) NWU <> V 0 0 0.
Proof.
  split.
  - unfold RGetElevation. rewrite west_el, pt_im, sin_PI2. lra.
  - assert (K : rw_k west_wave <> 0) by (cbn; lra). destruct (R_vel west_wave 0 (PI / 2) (- 1) NWU K) as (-> & _). intros E. apply (f_equal vy) in E.
    unfold cvel_form, R_E in E. rewrite Eval5_none in E by reflexivity. cbn in E. unfold th in E. rewrite cos_PI2, sin_PI2 in E.
    replace (1 * (0 * 0 + PI / 2 * 1) - 1 * 0 + 0) with (PI / 2) in E by ring. rewrite sin_PI2 in E. match type of E with context [exp ?a] => pose proof (exp_pos a) end. lra.
Qed.
(** The field without waves answers zero in both conventions *)
Theorem C38_null : forall x y z, NullGetElevation x (- y) NED = - NullGetElevation x y NWU /\
  NullGetVelocity x (- y) (- z) NED = convert NED (NullGetVelocity x y z NWU) /\
  NullGetAcceleration x (- y) (- z) NED = convert NED (NullGetAcceleration x y z NWU) /\
  NullGetPressure x (- y) (- z) NED = NullGetPressure x y z NWU.
Proof. intros. unfold NullGetElevation, NullGetVelocity, NullGetAcceleration, NullGetPressure, convert. cbn. repeat split; try f_equal; ring. Qed.

(** ** C39 *)
(** Where the derivative claim holds: everywhere for no stretching, Wheeler and Chakrabarti; under the
    level of the switch for the other models, and away from the kink of Delta stretching. *)
Definition under_the_switch (vf : vfactor) (e z h : R) : Prop :=
  match vf_kind vf with
  | SNone | SWheeler | SChakrabarti => True
  | SVertical | SExtrapol => z < DBL_EPSILON
  | SDelta hd d => z <> - hd /\ Zp_delta hd d e z < DBL_EPSILON
  | SHDelta d => Zp_hdelta d e z h < DBL_EPSILON
  end.
(** EvalDZ is the vertical derivative of Eval.  Restriction: above the switch it is not, see the next theorems. *)
Theorem C39_derivative : forall vf eta x y z k h, k <> 0 -> (vf_inf vf = false -> h <> 0) -> under_the_switch vf (eta x y) z h ->
  is_derive (fun s => Eval5 vf eta x y s k h) z (EvalDZ5 vf eta x y z k h).
Proof.
  intros vf eta x y z k h K H U. assert (Sh : vf_inf vf = false -> sinh (k * h) <> 0).
  { intros B. apply sinh_nz; auto. }
  unfold under_the_switch in U. unfold EvalDZ5. destruct vf as [kd inf]. cbn [vf_kind vf_inf] in *. destruct kd as [| | | | |hd d|d].
  - apply (Ez_D inf k h z Sh).
  - cbn [EvalDZ3 vf_kind]. unfold EvalDZ3. cbn [vf_kind vf_inf]. destruct (Rlt_dec z DBL_EPSILON); [|contradiction]. apply (Ez_D inf k h z Sh).
  - unfold EvalDZ3. cbn [vf_kind vf_inf]. destruct (Rlt_dec z DBL_EPSILON); [|contradiction]. apply (Ez_D inf k h z Sh).
  - cbv zeta. pose proof (Ez_aff inf k h (h / (h + eta x y)) (h * (h / (h + eta x y) - 1)) z Sh) as D.
    replace (h / (h + eta x y) * z + h * (h / (h + eta x y) - 1)) with (h * ((h + z) / (h + eta x y) - 1)) in D by (unfold Rdiv; ring).
    apply (is_derive_ext _ _ z _) with (2 := D). intros t. unfold Eval5. cbn [vf_kind vf_inf]. cbv zeta. f_equal. unfold Rdiv. req. ring.
  - unfold Eval5. cbn [vf_kind vf_inf]. destruct inf.
    + auto_derive; [exact I|]. ring.
    + apply chak_D.
  - destruct U as [U1 U2]. destruct (Zp_delta_loc hd d (eta x y) z U1) as (p & q & L & Z & Dz).
    destruct (seg_D inf k h p q z (Zp_delta hd d (eta x y)) Sh L Z) as [S1 _]. cbv zeta. destruct (Rlt_dec _ _); [|contradiction]. rewrite Dz. apply S1. exact U2.
  - pose proof (Zp_hdelta_aff d (eta x y) h) as Za.
    destruct (seg_D inf k h ((h + d * eta x y) / (h + eta x y)) (h * (h + d * eta x y) / (h + eta x y) - h) z (fun s => Zp_hdelta d (eta x y) s h) Sh) as [S1 _].
    + apply filter_forall. intros s. apply Za. + apply Za. + cbv zeta. destruct (Rlt_dec _ _); [|contradiction]. apply S1. exact U.
Qed.
(** Above the switch, Delta and HDelta: the reported derivative exceeds the derivative by k, at every point *)
Theorem C144_above_refuted : forall vf eta x y z k h, k <> 0 -> (vf_inf vf = false -> h <> 0) ->
  match vf_kind vf with
  | SDelta hd d => z <> - hd /\ DBL_EPSILON < Zp_delta hd d (eta x y) z
  | SHDelta d => DBL_EPSILON < Zp_hdelta d (eta x y) z h
  | _ => False end ->
  exists d, is_derive (fun s => Eval5 vf eta x y s k h) z d /\ EvalDZ5 vf eta x y z k h = d + k.
Proof.
  intros vf eta x y z k h K H U. assert (Sh : vf_inf vf = false -> sinh (k * h) <> 0).
  { intros B. apply sinh_nz; auto. }
  unfold EvalDZ5. destruct vf as [kd inf]. cbn [vf_kind vf_inf] in *. destruct kd as [| | | | |hd d|d]; try contradiction.
  - destruct U as [U1 U2]. destruct (Zp_delta_loc hd d (eta x y) z U1) as (p & q & L & Z & Dz).
    destruct (seg_D inf k h p q z (Zp_delta hd d (eta x y)) Sh L Z) as [_ S1]. exists (k * p). split; [apply S1; exact U2|].
    cbv zeta. destruct (Rlt_dec _ _); [lra|]. rewrite Dz, diffEz_0 by exact Sh. reflexivity.
  - pose proof (Zp_hdelta_aff d (eta x y) h) as Za.
    destruct (seg_D inf k h ((h + d * eta x y) / (h + eta x y)) (h * (h + d * eta x y) / (h + eta x y) - h) z (fun s => Zp_hdelta d (eta x y) s h) Sh) as [_ S1].
    + apply filter_forall. intros s. apply Za.
    + apply Za.
    + exists (k * ((h + d * eta x y) / (h + eta x y))). split; [apply S1; exact U|]. cbv zeta. destruct (Rlt_dec _ _); [lra|]. rewrite diffEz_0 by exact Sh. reflexivity.
Qed.
(** The three-argument functions of Vertical and Extrapol: derivative below the surface, k too large above *)
Theorem C144_three_refuted : forall kd inf z k h, kd = SVertical \/ kd = SExtrapol -> k <> 0 -> (inf = false -> h <> 0) ->
  (z < DBL_EPSILON -> is_derive (fun s => Eval3 (VF kd inf) s k h) z (EvalDZ3 (VF kd inf) z k h)) /\
  (DBL_EPSILON < z -> exists d, is_derive (fun s => Eval3 (VF kd inf) s k h) z d /\ EvalDZ3 (VF kd inf) z k h = d + k).
Proof.
  intros kd inf z k h Kd K H. assert (Sh : inf = false -> sinh (k * h) <> 0).
  { intros B. apply sinh_nz; auto. }
  split; intros Z.
  - assert (E : EvalDZ3 (VF kd inf) z k h = diffEz inf z k h) by (destruct Kd as [-> | ->]; cbn; destruct (Rlt_dec z DBL_EPSILON); [reflexivity|contradiction| reflexivity|contradiction]).
    rewrite E. apply is_derive_ext_loc with (fun s => Ez inf s k h); [|apply Ez_D; exact Sh].
    generalize (locally_lt z _ Z). apply filter_imp. intros s Hs. destruct Kd as [-> | ->]; cbn; destruct (Rlt_dec s DBL_EPSILON); try reflexivity; contradiction.
  - destruct Kd as [-> | ->].
    + exists 0. split.
      * apply is_derive_ext_loc with (fun s => Ez inf 0 k h); [|auto_derive; [exact I|]; reflexivity].
        generalize (locally_gt z _ Z). apply filter_imp. intros s Hs. cbn [Eval3 vf_kind]. unfold Eval3. cbn [vf_kind vf_inf]. destruct (Rlt_dec s DBL_EPSILON); [lra|reflexivity].
      * unfold EvalDZ3. cbn [vf_kind vf_inf]. destruct (Rlt_dec z DBL_EPSILON); [lra|]. rewrite diffEz_0 by exact Sh. ring.
    + exists k. split.
      * apply is_derive_ext_loc with (fun s => Ez inf 0 k h + k * s); [|auto_derive; [exact I|]; ring].
        generalize (locally_gt z _ Z). apply filter_imp. intros s Hs. unfold Eval3. cbn [vf_kind vf_inf]. destruct (Rlt_dec s DBL_EPSILON); [lra|reflexivity].
      * unfold EvalDZ3. cbn [vf_kind vf_inf]. destruct (Rlt_dec z DBL_EPSILON); [lra|]. rewrite diffEz_0 by exact Sh. ring.
Qed.
(** Wheeler maps the instantaneous surface to the mean level and keeps the bed *)
Theorem C39_wheeler : forall inf eta x y k h, h + eta x y <> 0 ->
  Eval5 (VF SWheeler inf) eta x y (eta x y) k h = airy_profile inf k h 0 /\
  Eval5 (VF SWheeler inf) eta x y (- h) k h = airy_profile inf k h (- h).
Proof.
  intros inf eta x y k h H. unfold Eval5, airy_profile. cbn [vf_kind vf_inf]. cbv zeta. split.
  - replace (h * ((h + eta x y) / (h + eta x y) - 1)) with 0 by (field; exact H). destruct inf; reflexivity.
  - replace (h * ((h + - h) / (h + eta x y) - 1)) with (- h) by (field; exact H). destruct inf; reflexivity.
Qed.
(** The regular field: no stretching and Wheeler are effective on the horizontal velocity at every point *)
Theorem C39_selection_regular : forall w t x y z, rw_k w <> 0 -> t = NO_STRETCHING \/ t = WHEELER ->
  let v := RGetVelocity (RSetStretching w t) x y z NWU in let e := RGetElevation w x y NWU in
  let f := profile t (b_inf (rw_b w)) (rw_k w) (b_depth (rw_b w)) e z in
  b_depth (rw_b w) + e <> 0 ->
  vx v = rw_omega w * e * f * cos (rw_dir w) /\ vy v = rw_omega w * e * f * sin (rw_dir w).
Proof.
  intros w t x y z K Ht v e f He. unfold v. destruct (R_vel (RSetStretching w t) x y z NWU K) as (-> & _). unfold cvel_form, R_E. cbn [vx vy flip_in NWUsign].
  assert (Ee : forall x y, Im (RComplexElevation (RSetStretching w t) x y NWU) = RGetElevation w x y NWU) by reflexivity.
  assert (E : Eval5 (rw_vf (RSetStretching w t)) (fun x0 y0 => Im (RComplexElevation (RSetStretching w t) x0 y0 NWU)) x y z (rw_k (RSetStretching w t)) (b_depth (rw_b (RSetStretching w t))) = f).
  { unfold f, profile, airy_profile. destruct Ht as [-> | ->]; unfold Eval5; cbn [rw_vf RSetStretching vf_kind vf_inf RStretching rw_k rw_b]; [reflexivity|]. cbv zeta. rewrite Ee. fold e.
    replace (b_depth (rw_b w) * ((b_depth (rw_b w) + z) / (b_depth (rw_b w) + e) - 1)) with (b_depth (rw_b w) * (z - e) / (b_depth (rw_b w) + e)) by (field; exact He). reflexivity. }
  match goal with |- context [Eval5 ?a ?b ?c ?d ?u ?m ?n] => change (Eval5 a b c d u m n) with (Eval5 (rw_vf (RSetStretching w t)) (fun x0 y0 => Im (RComplexElevation (RSetStretching w t) x0 y0 NWU)) x y z (rw_k (RSetStretching w t)) (b_depth (rw_b (RSetStretching w t)))) end.
  rewrite E. unfold e, RGetElevation. rewrite R_cel, pt_im. cbn [flip_in NWUsign]. cbn [rw_dir rw_omega rw_k rw_height rw_b RSetStretching]. split; ring.
Qed.
(** ... the five other selections are not: the horizontal velocity is that of no stretching at every point,
    and for the last three the whole field is the one without stretching *)
Theorem C144_selection_regular_refuted : forall w x y z, rw_k w <> 0 ->
  (forall t, t = VERTICAL \/ t = EXTRAPOLATE -> let v := RGetVelocity (RSetStretching w t) x y z NWU in let v0 := RGetVelocity (RSetStretching w NO_STRETCHING) x y z NWU in
    vx v = vx v0 /\ vy v = vy v0) /\
  (forall t, t = CHAKRABARTI \/ t = DELTA \/ t = HDELTA -> RSetStretching w t = RSetStretching w NO_STRETCHING).
Proof.
  intros w x y z K. split.
  - intros t Ht v v0. unfold v, v0. destruct (R_vel (RSetStretching w t) x y z NWU K) as (-> & _). destruct (R_vel (RSetStretching w NO_STRETCHING) x y z NWU K) as (-> & _).
    unfold cvel_form, R_E. cbn [vx vy]. destruct Ht as [-> | ->]; split; reflexivity.
  - intros t [-> | [-> | ->]]; reflexivity.
Qed.
(** The irregular field: no stretching, Wheeler, Chakrabarti, Delta and HDelta are effective *)
Definition effective_point (t : STRETCHING_TYPE) (h e z : R) : Prop :=
  match t with
  | NO_STRETCHING | CHAKRABARTI => True
  | WHEELER => h + e <> 0
  | DELTA => e <> 0 /\ (z <= 0 \/ DBL_EPSILON <= 3 / 10 * z)
  | HDELTA => let zp := (z + h) * (h + 3 / 10 * e) / (h + e) - h in zp <= 0 \/ DBL_EPSILON <= zp
  | VERTICAL | EXTRAPOLATE => False
  end.
Theorem C39_selection_irregular : forall w t x y z e, tables_fit w -> (forall k, In k (iq_ks w) -> k <> 0) ->
  IGetElevation w x y NWU = Some e -> effective_point t (b_depth (iq_b w)) e z ->
  exists v, IGetVelocity (ISetStretching w t) x y z NWU = Some v /\
    let f := fun i => profile t (b_inf (iq_b w)) (nth i (iq_ks w) 0) (b_depth (iq_b w)) e z in
    vx v = components_sum w (fun j i => nth i (iq_freqs w) 0 * component_elevation w j i x y * f i * cos (nth j (iq_dirs w) 0)) /\
    vy v = components_sum w (fun j i => nth i (iq_freqs w) 0 * component_elevation w j i x y * f i * sin (nth j (iq_dirs w) 0)).
Proof.
  intros w t x y z e T Hk He P. set (w1 := ISetStretching w t).
  assert (T1 : tables_fit w1) by exact T.
  assert (K : forall i, (i < iq_nbFreq w1)%nat -> qk w1 i <> 0). { intros i Hi. apply Hk. apply nth_In. destruct T as (_ & _ & T3 & _). cbn in Hi. unfold w1. cbn. lia. }
  assert (Ee : I_eta w1 x y = e). { unfold I_eta. change (IGetElevation w1 x y NWU) with (IGetElevation w x y NWU). rewrite He. reflexivity. }
  destruct (I_vel w1 T1 K x y z NWU) as (Ev & _). eexists. split; [exact Ev|]. intros f.
  assert (F : forall i, I_E w1 i x y z = f i).
  { intros i. unfold I_E, f, profile, airy_profile. change (qk w1 i) with (nth i (iq_ks w) 0). change (b_depth (iq_b w1)) with (b_depth (iq_b w)).
    set (k := nth i (iq_ks w) 0). set (h := b_depth (iq_b w)) in *. unfold w1, ISetStretching. cbn [iq_vf]. set (inf := b_inf (iq_b w)).
    fold w1. unfold Eval5. cbn [vf_kind vf_inf].
    destruct t; cbn [IStretching new_delta new_hdelta effective_point] in *; try contradiction; try reflexivity; cbv zeta in *; change (IQ _ _ _ _ _ _ _ _ _) with w1; rewrite ?Ee.
    - replace (h * ((h + z) / (h + e) - 1)) with (h * (z - e) / (h + e)) by (field; exact P). reflexivity.
    - reflexivity.
    - unfold new_delta. cbv iota. destruct P as [P1 P2]. assert (DP : 0 < DBL_EPSILON) by (unfold DBL_EPSILON; apply Rinv_0_lt_compat; lra). unfold Zp_delta.
      destruct (Rlt_dec (- 0) z) as [L|L]; destruct (Rle_dec z 0) as [M|M]; try lra.
      + replace ((z + 0) * (0 + 3 / 10 * e) / (0 + e) - 0) with (3 / 10 * z) by (field; lra).
        destruct (Rlt_dec (3 / 10 * z) DBL_EPSILON); [destruct P2; lra|]. destruct (Rle_dec (3 / 10 * z) 0); [lra|]. reflexivity.
      + destruct (Rlt_dec z DBL_EPSILON); [|lra]. destruct (Rle_dec z 0); [|lra]. reflexivity.
    - unfold new_hdelta. cbv iota. assert (DP : 0 < DBL_EPSILON) by (unfold DBL_EPSILON; apply Rinv_0_lt_compat; lra). unfold Zp_hdelta. set (zp := _ - h) in *.
      destruct (Rlt_dec zp DBL_EPSILON); destruct (Rle_dec zp 0); destruct P; try lra; reflexivity. }
  assert (Sx : forall g l, vx (vs l g) = fold_right Rplus 0 (map (fun i => vx (g i)) l)) by (intros g l; induction l as [|i l IH]; cbn [vs map fold_right]; [reflexivity|]; rewrite <- IH; reflexivity).
  assert (Sy : forall g l, vy (vs l g) = fold_right Rplus 0 (map (fun i => vy (g i)) l)) by (intros g l; induction l as [|i l IH]; cbn [vs map fold_right]; [reflexivity|]; rewrite <- IH; reflexivity).
  unfold components_sum. change (iq_nbFreq w1) with (iq_nbFreq w). change (iq_nbDir w1) with (iq_nbDir w). split.
  - rewrite Sx. f_equal. apply map_ext. intros i. rewrite Sx. f_equal. apply map_ext. intros j. unfold I_vform, cvel_form. cbn [vx flip_in NWUsign]. rewrite F.
    unfold component_elevation, I_A, I_th, th, qamp, qphi, qfreq, qk, qdir. cbn [NWUsign flip_in]. cbn [w1 ISetStretching iq_ks iq_freqs iq_dirs iq_amp iq_phases iq_b]. ring.
  - rewrite Sy. f_equal. apply map_ext. intros i. rewrite Sy. f_equal. apply map_ext. intros j. unfold I_vform, cvel_form. cbn [vy flip_in NWUsign]. rewrite F.
    unfold component_elevation, I_A, I_th, th, qamp, qphi, qfreq, qk, qdir. cbn [NWUsign flip_in]. cbn [w1 ISetStretching iq_ks iq_freqs iq_dirs iq_amp iq_phases iq_b]. ring.
Qed.
(** Vertical and extrapolation stretching change neither field horizontally, although their profiles differ
    from the one without stretching above the mean level *)
Theorem C144_selection_irregular_refuted : forall w t x y z, tables_fit w -> (forall k, In k (iq_ks w) -> k <> 0) -> t = VERTICAL \/ t = EXTRAPOLATE ->
  exists v v0, IGetVelocity (ISetStretching w t) x y z NWU = Some v /\ IGetVelocity (ISetStretching w NO_STRETCHING) x y z NWU = Some v0 /\ vx v = vx v0 /\ vy v = vy v0.
Proof.
  intros w t x y z T Hk Ht.
  assert (K : forall t i, (i < iq_nbFreq (ISetStretching w t))%nat -> qk (ISetStretching w t) i <> 0). { intros t' i Hi. apply Hk. apply nth_In. destruct T as (_ & _ & T3 & _). cbn in *. lia. }
  destruct (I_vel (ISetStretching w t) T (K t) x y z NWU) as (E & _). destruct (I_vel (ISetStretching w NO_STRETCHING) T (K NO_STRETCHING) x y z NWU) as (E0 & _).
  eexists. eexists. split; [exact E|]. split; [exact E0|].
  assert (Sx : forall f g l, (forall i : nat, vx (f i) = vx (g i) /\ vy (f i) = vy (g i)) -> vx (vs l f) = vx (vs l g) /\ vy (vs l f) = vy (vs l g)).
  { intros f g l H. induction l as [|i l (IHx & IHy)]; cbn [vs]; [split; reflexivity|]. destruct (H i) as (Hx & Hy). cbn [vec_add vx vy]. rewrite IHx, IHy, Hx, Hy. split; reflexivity. }
  apply Sx. intros i. apply Sx. intros j. unfold I_vform, cvel_form, I_E. cbn [vx vy]. destruct Ht as [-> | ->]; split; reflexivity.
Qed.
Theorem C144_profiles_differ : forall k h e z, 0 < k -> 0 < h -> 0 < z ->
  profile VERTICAL false k h e z < profile NO_STRETCHING false k h e z /\ profile VERTICAL true k h e z < profile NO_STRETCHING true k h e z /\
  profile EXTRAPOLATE true k h e z < profile NO_STRETCHING true k h e z.
Proof.
  intros k h e z K H Z. unfold profile, airy_profile. rewrite Rmin_right by lra. split; [|split].
  - assert (Sp : 0 < sinh (k * h)) by (apply sinh_pos'; apply Rmult_lt_0_compat; auto). apply Rmult_lt_compat_r; [apply Rinv_0_lt_compat; exact Sp|].
    apply cosh_lt; nra.
  - apply exp_increasing. nra.
  - destruct (Rle_dec z 0); [lra|]. rewrite Rmult_0_r, exp_0. apply exp_ineq1. nra.
Qed.
(** The hypotheses above the switch are met: elevation 1, level 1 above it *)
Example C39_above_case : DBL_EPSILON < Zp_delta 0 (3 / 10) 1 1 /\ DBL_EPSILON < Zp_hdelta (3 / 10) 1 1 10 /\ Zp_delta 0 (3 / 10) 1 (- 1) < DBL_EPSILON.
Proof.
  assert (D : DBL_EPSILON < 3 / 100 /\ 0 < DBL_EPSILON). { unfold DBL_EPSILON. split; [|apply Rinv_0_lt_compat; lra]. apply Rlt_trans with (/ 100); [apply Rinv_lt_contravar; lra|lra]. }
  destruct D as [D D0]. unfold Zp_delta, Zp_hdelta. destruct (Rlt_dec (- 0) 1); [|lra]. destruct (Rlt_dec (- 0) (- 1)); [lra|]. repeat split; lra.
Qed.

(** ** C43 *)
(** Degrees: reading back gives the angle modulo a turn, in [0, 360), for every angle and convention *)
Theorem C43_degrees : forall inp w a fc dc, let r := GetDirectionAngle (SetDirection inp w a DEG fc dc) DEG fc dc in
  0 <= r < 360 /\ same_direction DEG r a.
Proof.
  intros inp w a fc dc r. unfold r, GetDirectionAngle, angle_get. cbn [SetDirection rw_dir]. split; [apply norm360_range|].
  eapply same_trans; [apply norm360_same|]. apply same_trans with (rad_in a DEG * RAD2DEG); [|rewrite rad_deg; apply same_refl]. apply same_deg. apply (conv_twice _ (rad_in a DEG) fc dc). apply wave_angle_same.
Qed.
(** Radians: when mathutils normalises in place, NWU and "goes to" give the angle back in [0, 2 pi).
    Partial: the three other conventions fail, see below. *)
Theorem C116_radians_partial : forall w a, let r := GetDirectionAngle (SetDirection true w a RAD NWU GOTO) RAD NWU GOTO in
  0 <= r < 2 * PI /\ same_direction RAD r a.
Proof.
  intros w a r. unfold r, GetDirectionAngle, angle_get. cbn [SetDirection rw_dir wave_angle]. unfold wave_angle. pose proof (norm2pi_range a) as N. pose proof PI_close as P.
  assert (E : Normalize_0_360 (Normalize_0_2PI a) = Normalize_0_2PI a) by (apply norm_id; lra). rewrite E. split; [exact N|apply norm2pi_same].
Qed.
(** A wave that comes from 3 pi / 2: the angle read back in radians shows another direction *)
Theorem C116_radians_refuted : exists a, forall inp w, ~ same_direction RAD (GetDirectionAngle (SetDirection inp w a RAD NWU COMEFROM) RAD NWU COMEFROM) a.
Proof.
  exists (3 * PI / 2). intros inp w. pose proof PI_close as P.
  assert (E : wave_angle inp (3 * PI / 2) RAD NWU COMEFROM = PI / 2).
  { unfold wave_angle. replace (3 * PI / 2 - PI) with (PI / 2) by lra. destruct inp; [|reflexivity]. apply norm_id. lra. }
  unfold GetDirectionAngle, angle_get. cbn [SetDirection rw_dir]. rewrite E. replace (PI / 2 - PI) with (- (PI / 2)) by lra.
  assert (F : Normalize_0_360 (- (PI / 2)) = 360 - PI / 2).
  { unfold Normalize_0_360. assert (I : Int_part (- (PI / 2) / 360) = (-1)%Z).
    { destruct (Int_part_bounds (- (PI / 2) / 360)) as [L U]. assert (Int_part (- (PI / 2) / 360) < 0)%Z by (apply lt_IZR; lra). assert (-2 < Int_part (- (PI / 2) / 360))%Z by (apply lt_IZR; lra). lia. }
    rewrite I. ring. }
  rewrite F. intros [n Hn]. cbn in Hn. assert (Hn2 : (IZR n + 1) * (2 * PI) = 360) by lra.
  assert (57 < IZR n + 1 < 58) by (split; nra). assert (56 < n)%Z by (apply lt_IZR; lra). assert (n < 57)%Z by (apply lt_IZR; lra). lia.
Qed.
(** Vectors: NWU and "goes to" (with normalisation in place) give the unit vector of the direction back *)
Theorem C116_vector_partial : forall w d, 0 < vx d * vx d + vy d * vy d ->
  let r := GetDirection (SetDirectionVec true w d NWU GOTO) NWU GOTO in
  vz r = 0 /\ vx r * vx r + vy r * vy r = 1 /\ sqrt (vx d * vx d + vy d * vy d) * vx r = vx d /\ sqrt (vx d * vx d + vy d * vy d) * vy r = vy d.
Proof.
  intros w d H r. unfold r, GetDirection, SetDirectionVec. cbn [vx vy vz].
  destruct (C116_radians_partial w (atan2 (vy d) (vx d))) as [_ S]. destruct (same_cos _ _ S) as [-> ->].
  destruct (GeoProofs2.atan2_spec (vx d) (vy d) H) as [A1 A2]. split; [reflexivity|]. split; [|split; [exact A1|exact A2]].
  pose proof (sin2_cos2 (atan2 (vy d) (vx d))) as Q. unfold Rsqr in Q. lra.
Qed.
(** A wave that comes from the south (vector): the vector read back is not horizontal-south *)
Theorem C116_vector_refuted : exists d, forall inp w, d = V 0 (- 1) 0 /\ vx (GetDirection (SetDirectionVec inp w d NWU COMEFROM) NWU COMEFROM) <> 0.
Proof.
  exists (V 0 (- 1) 0). intros inp w. split; [reflexivity|]. pose proof PI_close as P.
  assert (At : atan2 (- 1) 0 = - PI / 2). { rewrite <- (GeoProofs2.atan2_polar 1 (- PI / 2)) at 1 by lra. f_equal; replace (- PI / 2) with (- (PI / 2)) by lra; rewrite ?sin_neg, ?cos_neg, ?sin_PI2, ?cos_PI2; ring. }
  unfold GetDirection, SetDirectionVec. cbn [vx vy]. rewrite At. unfold GetDirectionAngle, angle_get. cbn [SetDirection rw_dir].
  assert (S : same_direction RAD (wave_angle inp (- PI / 2) RAD NWU COMEFROM) (PI / 2)).
  { eapply same_trans; [apply wave_angle_same|]. cbn. exists (-1)%Z. lra. }
  destruct inp.
  - assert (E : wave_angle true (- PI / 2) RAD NWU COMEFROM = PI / 2).
    { unfold wave_angle, Normalize_0_2PI. assert (I : Int_part ((- PI / 2 - PI) / (2 * PI)) = (-1)%Z).
      { replace ((- PI / 2 - PI) / (2 * PI)) with (- 3 / 4) by (field; lra). destruct (Int_part_bounds (- 3 / 4)) as [L U].
        assert (Int_part (- 3 / 4) < 0)%Z by (apply lt_IZR; lra). assert (-2 < Int_part (- 3 / 4))%Z by (apply lt_IZR; lra). lia. }
      rewrite I. lra. }
    rewrite E. assert (F : Normalize_0_360 (PI / 2 - PI) = 360 - PI / 2).
    { unfold Normalize_0_360. assert (I : Int_part ((PI / 2 - PI) / 360) = (-1)%Z).
      { destruct (Int_part_bounds ((PI / 2 - PI) / 360)) as [L U]. assert (Int_part ((PI / 2 - PI) / 360) < 0)%Z by (apply lt_IZR; lra). assert (-2 < Int_part ((PI / 2 - PI) / 360))%Z by (apply lt_IZR; lra). lia. }
      rewrite I. lra. }
    rewrite F. rewrite cos_minus, cos_PI2, sin_PI2. destruct sin360 as [s|s]; lra.
  - unfold wave_angle. assert (F : Normalize_0_360 (- PI / 2 - PI - PI) = 360 - 5 * (PI / 2)).
    { unfold Normalize_0_360. assert (I : Int_part ((- PI / 2 - PI - PI) / 360) = (-1)%Z).
      { destruct (Int_part_bounds ((- PI / 2 - PI - PI) / 360)) as [L U]. assert (Int_part ((- PI / 2 - PI - PI) / 360) < 0)%Z by (apply lt_IZR; lra). assert (-2 < Int_part ((- PI / 2 - PI - PI) / 360))%Z by (apply lt_IZR; lra). lia. }
      rewrite I. lra. }
    rewrite F. replace (360 - 5 * (PI / 2)) with (360 - PI / 2 - 2 * PI) by lra. rewrite cos_minus, cos_2PI, sin_2PI, cos_minus, cos_PI2, sin_PI2. destruct sin360 as [s|s]; lra.
Qed.
(** GetWaveDirections: the direction set, modulo a turn, in every unit and convention *)
Theorem C43_list : forall inp inp' w a u fc dc, same_direction u (GetWaveDirections inp' (SetDirection inp w a u fc dc) u fc dc) a.
Proof.
  intros inp inp' w a u fc dc. unfold GetWaveDirections. cbn [SetDirection rw_dir].
  pose proof (wave_angle_same inp a u fc dc) as S. set (b := wave_angle inp a u fc dc) in *.
  assert (Q : same_direction RAD (match dc with COMEFROM => match fc with NED => - b | NWU => b end + PI | GOTO => match fc with NED => - b | NWU => b end end) (rad_in a u)).
  { eapply same_trans; [|apply (conv_twice b (rad_in a u) fc dc); exact S]. unfold conv_in. destruct dc; [apply same_refl|]. exists 1%Z. cbn. lra. }
  set (c := match dc with COMEFROM => _ | GOTO => _ end) in *.
  assert (Q2 : same_direction RAD (if inp' then Normalize_0_2PI c else c) (rad_in a u)) by (destruct inp'; [eapply same_trans; [apply norm2pi_same|exact Q]|exact Q]).
  destruct u; [exact Q2|]. apply same_trans with (rad_in a DEG * RAD2DEG); [|rewrite rad_deg; apply same_refl]. apply same_deg in Q2. exact Q2.
Qed.

(** ** C61 *)
(** The optimised regular field answers as the plain one after every history of calls that ends with
    Initialize or StepFinalize, whatever its cached members held before *)
Theorem C61_optim : forall fuel inp w e c d l s last o, last = OpInitialize \/ last = OpStepFinalize ->
  runs (ro_op fuel inp) (RO w e c d) (l ++ [(s, last)]) = Some o ->
  exists w1, runs (r_op fuel inp) w (l ++ [(s, last)]) = Some w1 /\
    forall x y z fc, ROGetElevation o x y fc = RGetElevation w1 x y fc /\ ROGetVelocity o x y z fc = RGetVelocity w1 x y z fc /\
      ROGetAcceleration o x y z fc = RGetAcceleration w1 x y z fc /\ ROGetPressure o x y z fc = RGetPressure w1 x y z fc.
Proof.
  intros fuel inp w e c d l s last o L H. exists (ro_w o). split; [apply (ro_w_runs fuel inp _ (RO w e c d) o H)|].
  rewrite runs_app in H. destruct (runs (ro_op fuel inp) (RO w e c d) l) as [o1|]; [|discriminate].
  assert (I : exists o2, o = InternalUpdate o2). { cbn [runs] in H. destruct L as [-> | ->]; cbn in H; inversion H; eexists; reflexivity. }
  destruct I as [o2 ->].
  assert (F : ROComplexElevation (InternalUpdate o2) = RComplexElevation (ro_w o2)) by (do 3 (apply functional_extensionality; intro); apply internal_elevation).
  intros x y z fc. unfold ROGetElevation, RGetElevation, ROGetVelocity, RGetVelocity, ROGetAcceleration, RGetAcceleration, ROGetPressure, RGetPressure, ROComplexVelocity, RComplexVelocity.
  rewrite F. cbn [InternalUpdate ro_w ro_cos ro_sin]. repeat split; reflexivity.
Qed.
(** Between Update and StepFinalize the optimised field still answers for the previous time *)
Theorem C127_update_refuted : exists fuel inp w s t o w1,
  runs (ro_op fuel inp) (RO w 0 0 0) [(s, OpInitialize); (s, OpUpdate t)] = Some o /\
  runs (r_op fuel inp) w [(s, OpInitialize); (s, OpUpdate t)] = Some w1 /\ ROGetElevation o 0 0 NWU <> RGetElevation w1 0 0 NWU.
Proof.
  set (s := Sea true 0 1 1 None). set (w := RW 1 (2 * PI) 1 1 0 (VF SNone true) (WB 1 0 0 true 1 1)).
  exists 0%nat, true, w, s, (PI / 2). eexists. eexists. split; [reflexivity|]. split; [reflexivity|].
  match goal with |- ROGetElevation ?o _ _ _ <> _ => set (o1 := o) end.
  assert (E : ROGetElevation o1 0 0 NWU = 0).
  { unfold ROGetElevation. change (ROComplexElevation o1 0 0 NWU) with (ROComplexElevation (InternalUpdate (RO (R_init s w) 0 0 0)) 0 0 NWU).
    rewrite internal_elevation, R_cel, pt_im. cbn. unfold th. replace (1 * (0 * cos 0 + 0 * sin 0) - 1 * 0 + 0) with 0 by ring. rewrite sin_0. ring. }
  rewrite E. unfold RGetElevation. rewrite R_cel, pt_im. cbn. unfold th. replace (1 * (0 * cos 0 + 0 * sin 0) - 1 * (PI / 2) + 0) with (- (PI / 2)) by ring. rewrite sin_neg, sin_PI2. lra.
Qed.
(** A whole simulation step (Update then StepFinalize), from any state: C61_optim applies *)
Example C61_case : forall fuel inp w e c d s t, exists o, runs (ro_op fuel inp) (RO w e c d) ([(s, OpHeight 2); (s, OpInitialize); (s, OpUpdate t)] ++ [(s, OpStepFinalize)]) = Some o.
Proof. intros. eexists. reflexivity. Qed.

(** ** C62 *)
(** The first period set on a field made in these surroundings: the frequency is 2 pi / T and the wave number
    is that of deep water or the answer of the dispersion solver *)
Theorem C62_first : forall fuel s w T w1, b_inf (rw_b w) = s_inf s -> SetWavePeriod fuel s w T = Some w1 ->
  rw_omega w1 = 2 * PI / T /\ rw_period w1 = T /\
  (s_inf s = true -> rw_k w1 = rw_omega w1 * rw_omega w1 / s_grav s) /\
  (s_inf s = false -> SolveWaveDispersionRelation fuel (s_depth s) (rw_omega w1) (s_grav s) = Some (rw_k w1)).
Proof.
  intros fuel s w T w1 B E. unfold SetWavePeriod in E. rewrite B in E. cbv zeta in E. destruct (s_inf s).
  - inversion E; subst w1. cbn. split; [reflexivity|]. split; [reflexivity|]. split; [reflexivity|discriminate].
  - destruct (SolveWaveDispersionRelation fuel (s_depth s) (2 * PI / T) (s_grav s)) as [k|] eqn:Sv; [|discriminate E].
    inversion E; subst w1. cbn. split; [reflexivity|]. split; [reflexivity|]. split; [discriminate|]. intros _. exact Sv.
Qed.
(** A fresh field and any calls but SetWavePeriod meet its hypothesis *)
Theorem C62_fresh : forall fuel inp s junk l w, runs (r_op fuel inp) (R_make s junk) (map (fun o => (s, o)) l) = Some w ->
  (forall T, ~ In (OpPeriod T) l) -> b_inf (rw_b w) = s_inf s.
Proof.
  intros fuel inp s junk l w H N.
  assert (G : forall l w0, b_inf (rw_b w0) = s_inf s -> (forall T, ~ In (OpPeriod T) l) -> runs (r_op fuel inp) w0 (map (fun o => (s, o)) l) = Some w -> b_inf (rw_b w) = s_inf s).
  { clear. induction l as [|o l IH]; intros w0 B N R; cbn [map runs] in R; [congruence|].
    assert (N' : forall T, ~ In (OpPeriod T) l) by (intros T Q; apply (N T); right; exact Q).
    destruct o; cbn [r_op] in R; try (eapply IH; [|exact N'|exact R]; exact B); try (eapply IH; [|exact N'|exact R]; reflexivity).
    exfalso. apply (N T). left. reflexivity. }
  apply (G l (R_make s junk)); auto.
Qed.
(** A short period sets the deep water flag for good: a longer period set afterwards on the same field gets
    the deep water wave length, another one than on a fresh field *)
Theorem C128_history_refuted : exists fuel s w T1 T2 w1 w12 w2, b_inf (rw_b w) = s_inf s /\ s_inf s = false /\
  SetWavePeriod fuel s w T1 = Some w1 /\ SetWavePeriod fuel s w1 T2 = Some w12 /\ SetWavePeriod fuel s w T2 = Some w2 /\
  GetWaveLength w12 <> GetWaveLength w2.
Proof.
  set (s := Sea false 4 1 1 None). pose proof PI_RGT_0 as PP.
  destruct (C40_ends 4 1 1 ltac:(lra)) as (k1 & n1 & N1). destruct (C40_ends 4 (1 / 10) 1 ltac:(lra)) as (k2 & n2 & N2).
  set (n := (n1 + n2)%nat). specialize (N1 n ltac:(unfold n; lia)). specialize (N2 n ltac:(unfold n; lia)).
  destruct (C40_residual n 4 1 1 k1 ltac:(lra) ltac:(lra) N1) as (L1 & _).
  destruct (C40_residual n 4 (1 / 10) 1 k2 ltac:(lra) ltac:(lra) N2) as (L2 & R2).
  assert (Q : 3 / k1 < 4). { apply Rmult_lt_reg_r with k1; [lra|]. replace (3 / k1 * k1) with 3 by (field; lra). lra. }
  set (w := R_make s (WB 1 0 0 false 1 1)).
  assert (E1 : 2 * PI / (2 * PI) = 1) by (field; lra). assert (E2 : 2 * PI / (20 * PI) = 1 / 10) by (field; lra).
  exists n, s, w, (2 * PI), (20 * PI). eexists. eexists. eexists. split; [reflexivity|]. split; [reflexivity|]. split; [|split; [|split]].
  - unfold SetWavePeriod. cbn [w R_make base_make rw_b b_inf s s_inf s_depth s_grav]. rewrite E1, N1. destruct (Rlt_dec (3 / k1) 4) as [_|]; [|contradiction]. reflexivity.
  - unfold SetWavePeriod. cbn [rw_b b_inf s s_grav]. rewrite E2. reflexivity.
  - unfold SetWavePeriod. cbn [w R_make base_make rw_b b_inf s s_inf s_depth s_grav]. rewrite E2, N2. reflexivity.
  - unfold GetWaveLength. cbn [rw_k]. intros E. assert (Ek : 1 / 10 * (1 / 10) / 1 = k2).
    { assert (Ei : / (1 / 10 * (1 / 10) / 1) = / k2) by (apply Rmult_eq_reg_l with (2 * PI); [exact E|lra]). rewrite <- (Rinv_inv k2), <- Ei, Rinv_inv. reflexivity. }
    rewrite <- Ek in R2. assert (Tl : tanh (1 / 10 * (1 / 10) / 1 * 4) < 1) by apply tanh_lt1. assert (Tb : tanh (1 / 10 * (1 / 10) / 1 * 4) <= 1 / 10 * (1 / 10) / 1 * 4) by (apply tanh_le_id; lra).
    apply Rabs_le_between in R2. lra.
Qed.
