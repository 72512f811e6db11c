(** Proofs for C72: standard wind and current forces. *)
From Coq Require Import Reals List Bool Lra Lia ZArith.
From Verif Require Import WavModel SeaModel FloModel WavProofs3 GeoModel GeoSpec GeoProofs GeoProofs2 BodyModel BodySpec BodyProofs BodyProofs2 BodyProofs3 BodyProofs4 FloSpec FloProofs.
Import ListNotations.
Open Scope R_scope.
Notation turn := BodySpec.turn.

Lemma mat_of_action q m : (forall x, qrotate q x = mv m x) -> Set_A_quaternion q = m.
Proof.
  intros H. pose proof (H (V 1 0 0)) as A. pose proof (H (V 0 1 0)) as B. pose proof (H (V 0 0 1)) as C. rewrite <- qrotate_mat in A, B, C.
  destruct (Set_A_quaternion q), m. unfold mv, dot3 in A, B, C. cbn in A, B, C. injection A as A1 A2 A3. injection B as B1 B2 B3. injection C as C1 C2 C3. f_equal; lra.
Qed.
Lemma rot_z a v : qrotate (UQ_SetAxisAngle (V 0 0 1) a NWU) v = mv (Rz a) v.
Proof.
  unfold UQ_SetAxisAngle. cbn [swap_if qswap_if IsNED]. rewrite angaxis_rodrigues by (unfold unit3, dot3; cbn [vx vy vz]; ring). unfold rodrigues, mv, Rz, dot3, plus3, scal3, cross3. cbn [vx vy vz m00 m01 m02 m10 m11 m12 m20 m21 m22]. apply vec_eq; cbn [vx vy vz]; ring.
Qed.
Lemma Rz_same a c : cos a = cos c -> sin a = sin c -> Rz a = Rz c.
Proof. intros A B. unfold Rz. rewrite A, B. reflexivity. Qed.
Lemma yaw_mv b : exists a, forall v, ProjectVectorFrameInParent (yaw_frame b) v NWU = mv (Rz a) v.
Proof. eexists. intros v. unfold yaw_frame, ProjectVectorFrameInParent, UQ_Rotate. cbn [Frame_make frot swap_if IsNED]. apply rot_z. Qed.
Lemma yaw_level b psi v : body_facts b -> level b psi -> ProjectVectorFrameInParent (yaw_frame b) v NWU = turn (body_map b) v.
Proof.
  intros BF LV. rewrite LV. unfold yaw_frame, ProjectVectorFrameInParent, UQ_Rotate. cbn [Frame_make frot swap_if IsNED]. rewrite rot_z. f_equal.
  assert (E : Set_A_quaternion (GetQuaternion b) = Rz psi). { apply mat_of_action. intros x. rewrite <- (bf_turn b BF). apply LV. }
  unfold Rot_GetCardan_RADIANS. rewrite E. cbn [IsNED]. unfold mat2eul_xyz, Rz. cbn [m20 m10 m00]. destruct (Rlt_dec 0 1); [|lra]. destruct (Rlt_dec (-1) 0); [|lra]. cbn [a_psi].
  destruct (atan2_unit (cos psi) (sin psi)) as [A B]; [pose proof (sin2_cos2 psi) as S2; unfold Rsqr in S2; lra|]. fold (Rz (atan2 (sin psi) (cos psi))). fold (Rz psi). apply Rz_same; auto.
Qed.
Lemma Rz_inv psi v : mv (Rz (- psi)) (mv (Rz psi) v) = v.
Proof. pose proof (sin2_cos2 psi) as S2. unfold Rsqr in S2. unfold mv, Rz, dot3. cbn [vx vy vz m00 m01 m02 m10 m11 m12 m20 m21 m22]. rewrite cos_neg, sin_neg. destruct v as [x y z]. cbn [vx vy vz]. set (c := cos psi) in *. set (s := sin psi) in *. clearbody c s. apply vec_eq; cbn [vx vy vz]; [transitivity ((s * s + c * c) * x)|transitivity ((s * s + c * c) * y)|]; try ring; rewrite S2; ring. Qed.
Lemma Rz_inv2 psi v : mv (Rz psi) (mv (Rz (- psi)) v) = v.
Proof. rewrite <- (Ropp_involutive psi) at 1. apply Rz_inv. Qed.
Lemma Rz_dot psi a b : dot3 (mv (Rz psi) a) (mv (Rz psi) b) = dot3 a b.
Proof. pose proof (sin2_cos2 psi) as S2. unfold Rsqr in S2. destruct a as [x y z], b as [x' y' z']. unfold mv, Rz, dot3. cbn [vx vy vz m00 m01 m02 m10 m11 m12 m20 m21 m22]. set (c := cos psi) in *. set (s := sin psi) in *. clearbody c s.
  replace ((c * x + - s * y + 0 * z) * (c * x' + - s * y' + 0 * z') + (s * x + c * y + 0 * z) * (s * x' + c * y' + 0 * z') + (0 * x + 0 * y + 1 * z) * (0 * x' + 0 * y' + 1 * z')) with ((s * s + c * c) * (x * x' + y * y') + z * z') by ring. rewrite S2. ring. Qed.

(** the flux seen by the standard forces *)
Lemma cog_unit b : body_facts b -> unitq (frot (GetFrameAtCOG b NWU)).
Proof. intros H. rewrite (bf_cogframe b H). apply (bf_q b H). Qed.
Lemma std_flux_eq w b psi : body_facts b -> level b psi ->
  let u := in_ship_axes psi (relative_flow w b) in std_flux w b = V (- vx u) (vy u) (vz u).
Proof.
  intros BF LV. cbv zeta. unfold std_flux. cbv zeta. set (h := V (vx (GetLinearVelocityInWorld b NWU)) (vy (GetLinearVelocityInWorld b NWU)) 0).
  pose proof (rel_eq w (GetFrameAtCOG b NWU) h NWU (cog_unit b BF)) as E. cbn [convert] in E. rewrite (bf_cogframe b BF), <- (bf_turn b BF), LV in E.
  change (minus3 (flow_velocity w) h) with (relative_flow w b) in E. unfold in_ship_axes. rewrite <- E, Rz_inv. unfold vneg, SwapFrameConvention. cbn [vx vy vz]. apply vec_eq; cbn [vx vy vz]; ring.
Qed.
Lemma norm_cos a : cos (Normalize_0_2PI a) = cos a /\ sin (Normalize_0_2PI a) = sin a.
Proof.
  unfold Normalize_0_2PI. set (k := Int_part (a / (2 * PI))). clearbody k. replace (a - 2 * PI * IZR k) with (a + 2 * PI * IZR (- k)) by (rewrite opp_IZR; ring).
  destruct (Z_le_gt_dec 0 (- k)) as [H|H].
  - assert (E : IZR (- k) = INR (Z.to_nat (- k))) by (rewrite INR_IZR_INZ, Z2Nat.id by lia; reflexivity). rewrite E. replace (a + 2 * PI * INR (Z.to_nat (- k))) with (a + 2 * INR (Z.to_nat (- k)) * PI) by ring. rewrite cos_period, sin_period. split; reflexivity.
  - set (b := a + 2 * PI * IZR (- k)). assert (E : a = b + 2 * INR (Z.to_nat k) * PI). { unfold b. rewrite INR_IZR_INZ, Z2Nat.id by lia. rewrite opp_IZR. ring. } rewrite E. rewrite cos_period, sin_period. split; reflexivity.
Qed.
Lemma folded_range a : 0 <= a < 2 * PI -> 0 <= folded a <= PI.
Proof. intros H. unfold folded. destruct (Rlt_dec PI a); lra. Qed.
Lemma folded_cos a : cos (folded a) = cos a.
Proof. unfold folded. destruct (Rlt_dec PI a); [|reflexivity]. replace (2 * PI - a) with (- a + 2 * INR 1 * PI) by (cbn; ring). rewrite cos_period, cos_neg. reflexivity. Qed.
Definition hnorm (u : vec) : R := sqrt (vx u * vx u + vy u * vy u).
Lemma angle_facts u : 0 < vx u * vx u + vy u * vy u -> let v := V (- vx u) (vy u) (vz u) in
  cos (projected_angle v) = - vx u / hnorm u /\ sin (projected_angle v) = vy u / hnorm u /\ folded (projected_angle v) = off_bow u.
Proof.
  intros P. cbv zeta. unfold projected_angle. cbn [vx vy]. destruct (atan2_spec (- vx u) (vy u)) as [A B]; [lra|]. assert (E : - vx u * - vx u + vy u * vy u = vx u * vx u + vy u * vy u) by ring. rewrite E in A, B. fold (hnorm u) in A, B.
  assert (HP : 0 < hnorm u) by (apply sqrt_lt_R0; exact P). destruct (norm_cos (atan2 (vy u) (- vx u))) as [C S]. rewrite C, S.
  assert (CE : cos (atan2 (vy u) (- vx u)) = - vx u / hnorm u) by (apply Rmult_eq_reg_l with (hnorm u); [|lra]; rewrite A; field; lra).
  split; [exact CE|]. split; [apply Rmult_eq_reg_l with (hnorm u); [|lra]; rewrite B; field; lra|].
  unfold off_bow. fold (hnorm u). rewrite <- CE, <- C, <- folded_cos. symmetry. apply acos_cos. apply folded_range, norm2pi_range.
Qed.
Lemma std_reads cx cy lever w rho b sd s xc psi : reachable b -> level b psi -> sd_xc sd = Some xc ->
  let u := in_ship_axes psi (relative_flow w b) in 0 < vx u * vx u + vy u * vy u ->
  exists s', std_compute cx cy lever w rho b sd s = Ok s' /\
    let F := standard_force cx cy rho sd u in
    reads_as b s' (W (turn (body_map b) F) (V 0 0 (vy F * lever (projected_angle (V (- vx u) (vy u) (vz u))) * sd_lpp sd)) (body_map b (V xc 0 0))).
Proof.
  intros RB LV X. cbv zeta. intros P. pose proof (facts b RB) as BF. set (u := in_ship_axes psi (relative_flow w b)) in *. unfold std_compute. cbv zeta. rewrite X. rewrite (std_flux_eq w b psi BF LV). cbv zeta. fold u.
  eexists. split; [reflexivity|]. rewrite !(yaw_level b psi _ BF LV). destruct (angle_facts u P) as [C [S _]]. rewrite C, S. assert (HP : 0 < hnorm u) by (apply sqrt_lt_R0; exact P).
  set (f := V _ _ 0). set (m := V 0 0 _). destruct (one_op b (FOBothWorldPtBody (turn (body_map b) f) (turn (body_map b) m) (V xc 0 0) NWU) s RB) as [w0 [_ H]]. cbn [force_step force_means convert] in H.
  assert (EF : f = standard_force cx cy rho sd u).
  { unfold f, standard_force, scal3, vdot, dot3. fold (hnorm u). apply vec_eq; cbn [vx vy vz]; field; lra. }
  assert (EM : turn (body_map b) m = V 0 0 (vy (standard_force cx cy rho sd u) * lever (projected_angle (V (- vx u) (vy u) (vz u))) * sd_lpp sd)).
  { rewrite LV, <- EF. unfold m, f, mv, Rz, dot3. cbn [vx vy vz m00 m01 m02 m10 m11 m12 m20 m21 m22]. apply vec_eq; cbn [vx vy vz]; ring. }
  rewrite <- EF, <- EM in *. exact H.
Qed.
Lemma std_calm cx cy lever w rho b sd s xc psi : reachable b -> level b psi -> sd_xc sd = Some xc -> relative_flow w b = origin ->
  exists s', std_compute cx cy lever w rho b sd s = Ok s' /\ reads_as b s' (W origin origin (body_map b (V xc 0 0))).
Proof.
  intros RB LV X Z. pose proof (facts b RB) as BF. unfold std_compute. cbv zeta. rewrite X. rewrite (std_flux_eq w b psi BF LV). cbv zeta. rewrite Z.
  assert (U : in_ship_axes psi origin = origin) by (unfold in_ship_axes, mv, dot3, origin; cbn [vx vy vz]; apply vec_eq; cbn [vx vy vz]; ring). rewrite U. unfold origin at 1 2 3 4 5 6 7 8 9 10 11 12. eexists. split; [reflexivity|]. rewrite !(yaw_level b psi _ BF LV).
  set (f := V _ _ 0). set (m := V 0 0 _). destruct (one_op b (FOBothWorldPtBody (turn (body_map b) f) (turn (body_map b) m) (V xc 0 0) NWU) s RB) as [w0 [_ H]]. cbn [force_step force_means convert] in H.
  assert (V0 : vdot (V (- vx origin) (vy origin) (vz origin)) (V (- vx origin) (vy origin) (vz origin)) = 0) by (unfold vdot, origin; cbn [vx vy vz]; ring).
  assert (TZ : turn (body_map b) origin = origin) by (rewrite LV; unfold mv, dot3, origin; cbn [vx vy vz]; apply vec_eq; cbn [vx vy vz]; ring).
  assert (EF : f = origin). { unfold f. rewrite ?V0. apply vec_eq; unfold origin, vdot; cbn [vx vy vz]; ring. }
  assert (EM : m = origin). { unfold m. apply vec_eq; unfold origin, vdot; cbn [vx vy vz]; ring. }
  rewrite EF, EM, TZ in H |- *. exact H.
Qed.
