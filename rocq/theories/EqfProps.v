(** Theorems about equilibrium frames (C48), the linear hydrostatic force (C58), the spring-damping
    frame (C59) and the mean-motion frame (C60) *)
From Coq Require Import Reals List Lra Lia Psatz.
From Coquelicot Require Import Coquelicot.
From Verif Require Import GeoModel GeoSpec BodyModel BodySpec GeoProofs GeoProofs2 GeoProofs3 GeoProofs4 BodyProofs BodyProofs2 BodyProofs3 SigModel MeshModel MeshSpec ClipSpec HydModel HydSpec HydProofs HydProofs3 HydProps EqfModel EqfSpec EqfProofs EqfProofs2.
Import ListNotations.
Open Scope R_scope.

(** ** C48 *)
(** A new frame stands at the given point of the body with the heading of the body turned by the
    given angle; the body does not move; the node of the frame coincides with it. *)
Theorem C48_created : forall b p rot fc phi theta psi, reachable b ->
  (forall x, turn (body_map b) x = mv (attitude phi theta psi) x) -> - (PI / 2) < theta < PI / 2 ->
  let '(b', e) := EF_make b p rot fc in
  stands (EF_GetFrame e) (body_map b (convert fc p)) (psi + yaw_in fc rot) /\
  reachable b' /\ (forall x, body_map b' x = body_map b x) /\
  exists n, nth_error (b_marks b') (length (b_marks b)) = Some n /\ NGetFrameInWorld n = EF_GetFrame e /\
    forall x fc, GetPointPositionInParent (GetPerturbationFrame e n) x fc = x.
Proof.
  intros b p rot fc phi theta psi RB A T. pose proof (created b p rot fc phi theta psi RB A T) as K. destruct (EF_make b p rot fc) as [b' e].
  destruct K as (K1 & K2 & K3 & n & K4 & K5). split; [exact K1|]. split; [exact K2|]. split; [exact K3|]. exists n. split; [exact K4|]. split; [exact K5|].
  intros x fc'. destruct (stands_parts _ _ _ K1) as (U & _). unfold GetPerturbationFrame, Frame_mul, Frame_Inverse. rewrite K5. unfold EF_GetFrame in *.
  rewrite pmap_mul by (try apply unitf_inv; assumption). rewrite pmap_inverse by assumption. apply pmap_inv_l. exact U.
Qed.
(** Velocity and yaw rate set before Initialize; updates at any times at least FLT_EPSILON apart:
    the pose at the last update is the exact uniform motion.  Restricted to rates the update does not
    discard, velocity given in NWU. *)
Theorem C48_motion : forall e n P psi v w fc times, stands (EF_GetFrame e) P psi ->
  fast_enough FLT_EPSILON v -> turns_enough FLT_EPSILON w -> spaced FLT_EPSILON 0 times ->
  let e0 := EF_Initialize (EF_SetAngularVelocity (SetVelocityInWorld e v NWU) w fc) n in
  let t := last times 0 in
  stands (EF_GetFrame (EF_ComputeAll e0 times)) (plus3 P (scal3 t v)) (psi + t * yaw_in fc w) /\
  GetFrameVelocityInWorld (EF_ComputeAll e0 times) NWU = v /\
  forall fc', GetFrameAngularVelocity (EF_ComputeAll e0 times) fc' = V 0 0 (yaw_in fc' (yaw_in fc w)).
Proof.
  intros e n P psi v w fc times S0 FV FW SP. cbv zeta. set (e0 := EF_Initialize _ _).
  assert (FW' : turns_enough FLT_EPSILON (yaw_in fc w)) by (unfold turns_enough; destruct fc; cbn [yaw_in]; rewrite ?Rabs_Ropp; destruct FW as [->|FW]; auto; left; ring).
  assert (H : pose_at e0 P psi v (yaw_in fc w) 0).
  { unfold pose_at, e0, EF_Initialize, EF_SetAngularVelocity, SetVelocityInWorld; cbn [ef_frame ef_vel ef_w ef_init ef_prev]. split; [|split; [|split]]; try reflexivity; [|destruct fc; reflexivity].
    replace (plus3 P (scal3 0 v)) with P by (destruct P, v; geo; veq; ring). rewrite Rmult_0_l, Rplus_0_r. exact S0. }
  destruct (pose_spaced times e0 P psi v _ 0 FV FW' SP H) as (A & B & C & _). split; [exact A|]. split; [exact B|].
  intros fc'. unfold GetFrameAngularVelocity. rewrite C. f_equal. destruct fc'; cbn [IsNED yaw_in]; [reflexivity|]. change (-1) with (- (1)). ring.
Qed.
(** Without the spacing, the pose is that of a time closer than FLT_EPSILON to the last update. *)
Theorem C48_motion_any_times : forall e n P psi v w fc times, stands (EF_GetFrame e) P psi ->
  fast_enough FLT_EPSILON v -> turns_enough FLT_EPSILON w ->
  let e0 := EF_Initialize (EF_SetAngularVelocity (SetVelocityInWorld e v NWU) w fc) n in
  exists t, Rabs (t - last times 0) < FLT_EPSILON /\
  stands (EF_GetFrame (EF_ComputeAll e0 times)) (plus3 P (scal3 t v)) (psi + t * yaw_in fc w).
Proof.
  intros e n P psi v w fc times S0 FV FW. cbv zeta. set (e0 := EF_Initialize _ _).
  assert (FW' : turns_enough FLT_EPSILON (yaw_in fc w)) by (unfold turns_enough; destruct fc; cbn [yaw_in]; rewrite ?Rabs_Ropp; destruct FW as [->|FW]; auto; left; ring).
  assert (H : pose_at e0 P psi v (yaw_in fc w) 0).
  { unfold pose_at, e0, EF_Initialize, EF_SetAngularVelocity, SetVelocityInWorld; cbn [ef_frame ef_vel ef_w ef_init ef_prev]. split; [|split; [|split]]; try reflexivity; [|destruct fc; reflexivity].
    replace (plus3 P (scal3 0 v)) with P by (destruct P, v; geo; veq; ring). rewrite Rmult_0_l, Rplus_0_r. exact S0. }
  destruct (pose_any times e0 P psi v _ 0 FV FW' H) as (t & D & A & _). exists t. auto.
Qed.
(** With the velocity taken from the body, the speed is that of the node at initialisation. *)
Theorem C48_velocity_from_body : forall e n P psi times, stands (EF_GetFrame e) P psi -> ef_w e = 0 ->
  let v := NGetVelocityInWorld n NWU in fast_enough FLT_EPSILON v -> spaced FLT_EPSILON 0 times ->
  let e0 := EF_Initialize (InitializeVelocityFromBody e true) n in
  stands (EF_GetFrame (EF_ComputeAll e0 times)) (plus3 P (scal3 (last times 0) v)) psi.
Proof.
  intros e n P psi times S0 W v FV SP e0. assert (H : pose_at e0 P psi v 0 0).
  { unfold pose_at, e0, EF_Initialize, InitializeVelocityFromBody; cbn [ef_frame ef_vel ef_w ef_init ef_prev]. split; [|split; [|split]]; try reflexivity; [|exact W].
    replace (plus3 P (scal3 0 v)) with P by (destruct P, v; geo; veq; ring). rewrite Rmult_0_l, Rplus_0_r. exact S0. }
  destruct (pose_spaced times e0 P psi v 0 0 FV (or_introl eq_refl) SP H) as (A & _). rewrite Rmult_0_r, Rplus_0_r in A. exact A.
Qed.
(** A slow frame never moves, whatever the time: below sqrt(FLT_EPSILON) m/s the velocity is ignored. *)
Theorem C120_slow_refuted : forall e n P psi v times, stands (EF_GetFrame e) P psi -> ef_w e = 0 -> dot3 v v <= FLT_EPSILON ->
  let e0 := EF_Initialize (SetVelocityInWorld e v NWU) n in
  stands (EF_GetFrame (EF_ComputeAll e0 times)) P psi /\ GetFrameVelocityInWorld (EF_ComputeAll e0 times) NWU = v.
Proof.
  intros e n P psi v times S0 W SL e0. assert (H : stands (ef_frame e0) P psi /\ ef_w e0 = 0 /\ ef_vel e0 = v) by (unfold e0; cbn; auto).
  clearbody e0. revert e0 H. induction times as [|t l IH]; intros e0 (A & B & C); [split; [exact A|exact C]|]. cbn [EF_ComputeAll fold_left]. apply IH. unfold EF_Compute.
  destruct (Rlt_dec (Rabs (t - ef_prev e0)) FLT_EPSILON); [auto|]. cbv zeta. cbn [ef_frame ef_w ef_vel]. rewrite B, C, Rabs_R0.
  destruct (Rlt_dec FLT_EPSILON (vdot v v)) as [K|_]; [change (dot3 v v) with (vdot v v) in SL; lra|]. destruct (Rlt_dec FLT_EPSILON 0) as [K|_]; [unfold FLT_EPSILON in K; lra|]. auto.
Qed.
Example C48_slow_case : let v := V (/ 10000) 0 0 in v <> origin /\ dot3 v v <= FLT_EPSILON.
Proof. cbv zeta. split; [intro E; injection E; intros; lra|]. unfold FLT_EPSILON; geo. lra. Qed.
(** ForceInitialize during the simulation: the clock of the frame restarts from 0, so the next
    update at time t moves the frame by t v instead of (t - t0) v. *)
Theorem C120_restart_refuted : forall e n P psi v t0 t, stands (EF_GetFrame e) P psi -> ef_w e = 0 -> FLT_EPSILON < dot3 v v ->
  FLT_EPSILON <= t0 -> t0 < t ->
  let e1 := EF_Compute (EF_Initialize (SetVelocityInWorld e v NWU) n) t0 in
  stands (EF_GetFrame (EF_Compute (EF_Initialize e1 n) t)) (plus3 P (scal3 (t0 + t) v)) psi /\ scal3 (t0 + t) v <> scal3 t v.
Proof.
  intros e n P psi v t0 t S0 W FV T0 T e1. assert (EP : 0 < FLT_EPSILON) by (unfold FLT_EPSILON; lra).
  assert (H : pose_at (EF_Initialize (SetVelocityInWorld e v NWU) n) P psi v 0 0).
  { unfold pose_at, EF_Initialize, SetVelocityInWorld; cbn [ef_frame ef_vel ef_w ef_init ef_prev]. split; [|split; [|split]]; try reflexivity; [|exact W].
    replace (plus3 P (scal3 0 v)) with P by (destruct P, v; geo; veq; ring). rewrite Rmult_0_l, Rplus_0_r. exact S0. }
  pose proof (pose_step _ _ _ _ _ _ t0 (or_intror FV) (or_introl eq_refl) ltac:(rewrite Rminus_0_r, Rabs_pos_eq; lra) H) as H1. fold e1 in H1.
  assert (I0 : ef_init e1 = false). { unfold e1, EF_Compute. destruct (Rlt_dec _ _); reflexivity. }
  destruct H1 as (A & B & C & D).
  assert (H2 : pose_at (EF_Initialize e1 n) (plus3 P (scal3 t0 v)) psi v 0 0).
  { unfold pose_at, EF_Initialize; cbn [ef_frame ef_vel ef_w ef_init ef_prev]. rewrite I0. split; [|auto]. rewrite Rmult_0_r, Rplus_0_r in A. rewrite Rmult_0_l, Rplus_0_r.
    replace (plus3 (plus3 P (scal3 t0 v)) (scal3 0 v)) with (plus3 P (scal3 t0 v)) by (destruct P, v; geo; veq; ring). exact A. }
  pose proof (pose_step _ _ _ _ _ _ t (or_intror FV) (or_introl eq_refl) ltac:(rewrite Rminus_0_r, Rabs_pos_eq; lra) H2) as (A2 & _). split.
  - rewrite Rmult_0_r, Rplus_0_r in A2. replace (plus3 P (scal3 (t0 + t) v)) with (plus3 (plus3 P (scal3 t0 v)) (scal3 t v)) by (destruct P, v; geo; veq; ring). exact A2.
  - intro E. destruct v as [a b c]. unfold dot3, scal3 in *; cbn [vx vy vz] in *. injection E. intros E3 E2 E1.
    assert (a = 0) by (apply (Rmult_eq_reg_l t0); lra). assert (b = 0) by (apply (Rmult_eq_reg_l t0); lra). assert (c = 0) by (apply (Rmult_eq_reg_l t0); lra). subst a b c. lra.
Qed.
(** Velocity readings: world velocity in NWU and yaw rate in both conventions *)
Theorem C48_velocity_read : forall e v w fc, 
  GetFrameVelocityInWorld (SetVelocityInWorld e v NWU) NWU = v /\
  GetFrameVelocityInWorld (SetVelocityInWorld e v NWU) NED = convert NED v /\
  GetFrameAngularVelocity (EF_SetAngularVelocity e w fc) fc = V 0 0 w.
Proof.
  intros e v w fc. split; [reflexivity|]. split; [unfold GetFrameVelocityInWorld; rewrite swap_convert; reflexivity|].
  unfold GetFrameAngularVelocity, EF_SetAngularVelocity; cbn [ef_w]. f_equal. destruct fc; cbn [IsNED]; [reflexivity|]. change (-1) with (- (1)). ring.
Qed.
(** A velocity set in NED is not converted: it is read back with the wrong sign ... *)
Theorem C120_velocity_ned_refuted : forall e v, (vy v <> 0 \/ vz v <> 0) -> GetFrameVelocityInWorld (SetVelocityInWorld e v NED) NED <> v.
Proof.
  intros e [a b c] H E. unfold GetFrameVelocityInWorld, SetVelocityInWorld in E; cbn [ef_vel] in E. rewrite swap_convert in E. unfold convert in E; cbn [vx vy vz] in *. injection E. intros. lra.
Qed.
(** ... and a velocity set in the axes of the frame, in either convention, is read back in the same
    axes and convention ... *)
Theorem C48_velocity_in_frame : forall e v fc P psi, stands (EF_GetFrame e) P psi -> GetFrameVelocityInFrame (SetVelocityInFrame e v fc) fc = v.
Proof.
  intros e v fc P psi H. destruct (stands_parts _ _ _ H) as (U & _). unfold GetFrameVelocityInFrame, SetVelocityInFrame, SetVelocityInWorld, ProjectVectorParentInFrame, ProjectVectorFrameInParent; cbn [ef_frame ef_vel].
  unfold EF_GetFrame in *. rewrite !UQ_Rotate_convert, convert_invol, qrotate_conj_l by exact U. apply convert_invol.
Qed.
(** ... but in NED the frame then moves in the mirrored direction. *)
Theorem C120_velocity_in_frame_ned_refuted : forall e v P psi, stands (EF_GetFrame e) P psi ->
  let u := mv (Rz psi) (convert NED v) in
  GetFrameVelocityInWorld (SetVelocityInFrame e v NED) NWU = convert NED u /\ (vy u <> 0 \/ vz u <> 0 -> convert NED u <> u).
Proof.
  intros e v P psi H u. destruct (stands_parts _ _ _ H) as (U & _ & Q). split.
  - unfold GetFrameVelocityInWorld, SetVelocityInFrame, SetVelocityInWorld, ProjectVectorFrameInParent; cbn [ef_vel]. rewrite UQ_Rotate_convert. unfold EF_GetFrame in *. rewrite Q. reflexivity.
  - clearbody u. destruct u as [a b c]. unfold convert; cbn [vx vy vz]. intros N K. injection K. intros. lra.
Qed.
(** Perturbation: the perturbation frame maps node coordinates to frame coordinates; velocities are
    differences, projected on the axes of the frame on demand. *)
Theorem C48_perturbation : forall e n P psi, stands (EF_GetFrame e) P psi -> unitq (frot (NGetFrameInWorld n)) ->
  (forall x fc, GetPointPositionInParent (EF_GetFrame e) (GetPointPositionInParent (GetPerturbationFrame e n) x fc) fc = GetPointPositionInParent (NGetFrameInWorld n) x fc) /\
  (forall fc, GetPerturbationVelocityInWorld e n fc = convert fc (minus3 (NGetVelocityInWorld n NWU) (GetFrameVelocityInWorld e NWU))) /\
  (forall fc, mv (Rz psi) (convert fc (GetPerturbationVelocityInFrame e n fc)) = minus3 (NGetVelocityInWorld n NWU) (GetFrameVelocityInWorld e NWU)) /\
  (forall fc, GetPerturbationAngularVelocity e n fc = convert fc (minus3 (NGetAngularVelocityInWorld n NWU) (GetFrameAngularVelocity e NWU))) /\
  (forall fc, mv (Rz psi) (convert fc (GetPerturbationAngularVelocityInFrame e n fc)) = minus3 (NGetAngularVelocityInWorld n NWU) (GetFrameAngularVelocity e NWU)).
Proof.
  intros e n P psi H UN. destruct (stands_parts _ _ _ H) as (U & _ & Q). unfold EF_GetFrame in *.
  assert (A : forall fc, GetPerturbationVelocityInWorld e n fc = convert fc (minus3 (NGetVelocityInWorld n NWU) (GetFrameVelocityInWorld e NWU))).
  { intros fc. unfold GetPerturbationVelocityInWorld, NGetVelocityInWorld, GetFrameVelocityInWorld. rewrite !swap_convert. rewrite vsub_minus, <- convert_minus. reflexivity. }
  assert (B : forall fc, GetPerturbationAngularVelocity e n fc = convert fc (minus3 (NGetAngularVelocityInWorld n NWU) (GetFrameAngularVelocity e NWU))).
  { intros fc. unfold GetPerturbationAngularVelocity, NGetAngularVelocityInWorld, GetFrameAngularVelocity. rewrite !swap_convert. rewrite vsub_minus. cbn [convert IsNED].
    destruct fc; [reflexivity|]. destruct (Wvel_par (mk_abs n)) as [a b c]. change (-1) with (- (1)). geo. cbn [IsNED]. veq; ring. }
  split; [|split; [exact A|split; [|split; [exact B|]]]].
  - intros x fc. unfold GetPerturbationFrame, Frame_mul, Frame_Inverse. rewrite pmap_mul; [|apply unitf_inv; exact U|exact UN]. rewrite pmap_inverse by exact U. apply pmap_inv_r. exact U.
  - intros fc. unfold GetPerturbationVelocityInFrame, ProjectVectorParentInFrame. rewrite UQ_Rotate_convert, convert_invol, <- Q, qrotate_conj_r by exact U. rewrite A, convert_invol. reflexivity.
  - intros fc. unfold GetPerturbationAngularVelocityInFrame, ProjectVectorParentInFrame. rewrite UQ_Rotate_convert, convert_invol, <- Q, qrotate_conj_r by exact U. rewrite B, convert_invol. reflexivity.
Qed.
Definition some_body : body := SetCOG newbody (V 1 2 3) NED.
Lemma some_body_ok : reachable some_body /\ forall x, turn (body_map some_body) x = mv (attitude 0 0 0) x.
Proof.
  split; [exists [BOSetCOG (V 1 2 3) NED]; split; [repeat constructor|reflexivity]|].
  intros x. unfold some_body. rewrite newbody_can. destruct (setcog_can fident vzero qzero origin nil (V 1 2 3) NED unitq_one) as (v' & E & _). rewrite E, turn_can.
  cbn [frot fident]. rewrite qrotate_one. unfold attitude, Rx, Ry, Rz. rewrite !mv_mm, cos_0, sin_0. destruct x; geo; veq; ring.
Qed.
(** A frame of a body with its node 0.5 m ahead of the origin, turned by 0.3 rad in NED; then motion
    at (2, 1, 0) m/s turning at 0.01 rad/s *)
Example C48_not_vacuous : let '(b', e) := EF_make some_body (V (/ 2) 0 0) (3 / 10) NED in
  exists P psi n, stands (EF_GetFrame e) P psi /\ nth_error (b_marks b') 0 = Some n /\ cos psi = cos (- (3 / 10)) /\ NGetFrameInWorld n = EF_GetFrame e /\ unitq (frot (NGetFrameInWorld n)).
Proof.
  destruct some_body_ok as [RB A]. pose proof PI_RGT_0. pose proof (C48_created some_body (V (/ 2) 0 0) (3 / 10) NED 0 0 0 RB A ltac:(lra)) as K.
  destruct (EF_make some_body (V (/ 2) 0 0) (3 / 10) NED) as [b' e]. destruct K as (K1 & K2 & K3 & n & K4 & K5 & _). exists (body_map some_body (convert NED (V (/ 2) 0 0))), (0 + yaw_in NED (3 / 10)), n.
  split; [exact K1|]. split; [exact K4|]. split; [rewrite Rplus_0_l; reflexivity|]. split; [exact K5|]. rewrite K5. apply K1.
Qed.
Example C48_rates_not_vacuous : fast_enough FLT_EPSILON (V 2 1 0) /\ turns_enough FLT_EPSILON (/ 100) /\ spaced FLT_EPSILON 0 [1; 3; 4].
Proof.
  unfold fast_enough, turns_enough, spaced, FLT_EPSILON. rewrite (Rabs_pos_eq (/ 100)), !Rabs_pos_eq by lra. repeat split; try (right; geo; lra); lra.
Qed.

(** ** C58 *)
(** Displacement d, roll phi, pitch theta and yaw with respect to the equilibrium frame: the force is
    the weight minus K (heave, roll, pitch); position, heading, drift and yaw have no effect. *)
Theorem C58_value : forall g mass K e n s P psi d phi theta psi', stands (EF_GetFrame e) P psi -> displaced (NGetFrameInWorld n) P psi d phi theta psi' ->
  - PI < phi <= PI -> - (PI / 2) < theta < PI / 2 ->
  exists s', LH_Compute g mass K e n s = Some s' /\
    (forall fc, GetForceInWorld s' fc = convert fc (V 0 0 (g * mass - (m00 K * vz d + m01 K * phi + m02 K * theta)))) /\
    (forall fc, GetTorqueInBodyAtCOG s' fc = convert fc (V (- (m10 K * vz d + m11 K * phi + m12 K * theta)) (- (m20 K * vz d + m21 K * phi + m22 K * theta)) 0)).
Proof. intros. eapply lh_value; eassumption. Qed.
(** At the equilibrium pose it balances the weight exactly. *)
Theorem C58_equilibrium : forall g mass K e n s P psi, stands (EF_GetFrame e) P psi -> NGetFrameInWorld n = EF_GetFrame e ->
  exists s', LH_Compute g mass K e n s = Some s' /\ GetForceInWorld s' NWU = V 0 0 (g * mass) /\ GetTorqueInBodyAtCOG s' NWU = origin.
Proof.
  intros g mass K e n s P psi H E. pose proof PI_RGT_0.
  assert (D : displaced (NGetFrameInWorld n) P psi origin 0 0 0).
  { destruct H as [U H]. rewrite E. split; [exact U|]. intros x. rewrite H. do 2 f_equal. unfold attitude, Rx, Ry, Rz. rewrite !mv_mm, cos_0, sin_0. destruct x; geo; veq; ring. }
  destruct (C58_value g mass K e n s P psi origin 0 0 0 H D ltac:(lra) ltac:(lra)) as (s' & E1 & E2 & E3). exists s'. split; [exact E1|]. rewrite E2, E3. unfold convert, origin; cbn [vx vy vz].
  split; apply vec_eq; cbn [vx vy vz]; ring.
Qed.
Definition lin_load (g mass : R) (K : mat) (e : eqf) (n : marker) : vec :=
  match LH_Compute g mass K e n (Force vzero vzero) with
  | Some s => restoring (g * mass) (GetForceInWorld s NWU) (GetTorqueInBodyAtCOG s NWU) | None => origin end.
Lemma lin_load_value g mass K e n P psi d phi theta psi' : stands (EF_GetFrame e) P psi -> displaced (NGetFrameInWorld n) P psi d phi theta psi' ->
  - PI < phi <= PI -> - (PI / 2) < theta < PI / 2 -> lin_load g mass K e n = scal3 (-1) (mv K (V (vz d) phi theta)).
Proof.
  intros. destruct (C58_value g mass K e n (Force vzero vzero) P psi d phi theta psi') as (s' & E1 & E2 & E3); auto. unfold lin_load. rewrite E1, E2, E3. unfold convert, restoring; cbn [vx vy vz].
  apply vec_eq; unfold scal3, mv, dot3; cbn [vx vy vz]; change (-1) with (- (1)); ring.
Qed.
Lemma linear_derive (f : R -> vec) (a : vec) : (forall t, Rabs t < PI / 2 -> f t = scal3 (-1) (scal3 t a)) -> derive3 f 0 (scal3 (-1) a).
Proof.
  intros H. pose proof PI_RGT_0 as HP.
  assert (L : locally 0 (fun t => scal3 (-1) (scal3 t a) = f t)).
  { exists (mkposreal (PI / 2) ltac:(lra)). intros y Hy. symmetry. apply H. replace y with (y - 0) by lra. exact Hy. }
  assert (D : forall (c : vec -> R) (k : R), (forall t, c (scal3 (-1) (scal3 t a)) = k * t) -> is_derive (fun t => c (f t)) 0 k).
  { intros c k Hc. apply (is_derive_ext_loc (fun t => k * t)). - destruct L as [eps L]. exists eps. intros y Hy. rewrite <- (L y Hy). symmetry. apply Hc.
    - auto_derive; [exact I|]. ring. }
  unfold derive3. split; [|split]; apply (D _ (_ : R)); intros t; unfold scal3; cbn [vx vy vz]; ring.
Qed.
(** For a hull floating in balance, with the stiffness computed from its mesh and reduced at the
    centre of gravity G, and the node of the frame at G: to first order in heave, roll and pitch,
    the force and moments equal those of the hydrostatic pressure and weight. *)
Theorem C58_first_order_exact : forall u m ls K0 rho g cog fc mass e P psi (heaved rolled pitched : R -> marker),
  floating u m ls -> rho * g <> 0 -> stands (EF_GetFrame e) P psi ->
  (forall t, displaced (NGetFrameInWorld (heaved t)) P psi (V 0 0 t) 0 0 0) ->
  (forall t, displaced (NGetFrameInWorld (rolled t)) P psi origin t 0 0) ->
  (forall t, displaced (NGetFrameInWorld (pitched t)) P psi origin 0 t 0) ->
  let wet := soup_of (verts m) (faces m) in let G := convert fc cog in let w := rho * g * volume (wet ++ caps ls) in
  exists h d1 d2 d3, ComputeProperties u (HP_make_at K0 rho g m cog cog fc) = Some h /\
    derive3 (fun t => lin_load g mass (h_K h) e (heaved t)) 0 d1 /\ derive3 (fun t => load rho g wet w G G (heave t)) 0 d1 /\
    derive3 (fun t => lin_load g mass (h_K h) e (rolled t)) 0 d2 /\ derive3 (fun t => load rho g wet w G G (roll G t)) 0 d2 /\
    derive3 (fun t => lin_load g mass (h_K h) e (pitched t)) 0 d3 /\ derive3 (fun t => load rho g wet w G G (pitch G t)) 0 d3.
Proof.
  intros u m ls K0 rho g cog fc mass e P psi heaved rolled pitched F RG H HH HR HP0. cbv zeta. pose proof PI_RGT_0 as HP.
  destruct (C36_stiffness_is_derivative u m ls K0 rho g cog cog fc F RG) as (h & E & D1 & D2 & D3).
  assert (EQV : forall (f : R -> vec) a b, derive3 f 0 a -> a = b -> derive3 f 0 b) by (intros; subst; assumption).
  exists h, (scal3 (-1) (mv (h_K h) (V 1 0 0))), (scal3 (-1) (mv (h_K h) (V 0 1 0))), (scal3 (-1) (mv (h_K h) (V 0 0 1))). split; [exact E|].
  split; [|split; [|split; [|split; [|split]]]].
  - apply linear_derive. intros t Ht. rewrite (lin_load_value g mass (h_K h) e (heaved t) P psi _ _ _ _ H (HH t)) by lra. f_equal. generalize (h_K h). intros []; geo; veq; ring.
  - eapply EQV; [exact D1|]. generalize (h_K h). intros []; geo. change (-1) with (- (1)). veq; ring.
  - apply linear_derive. intros t Ht. apply Rabs_def2 in Ht. rewrite (lin_load_value g mass (h_K h) e (rolled t) P psi _ _ _ _ H (HR t)) by lra. f_equal. generalize (h_K h). intros []; geo; veq; ring.
  - eapply EQV; [exact D2|]. generalize (h_K h). intros []; geo. change (-1) with (- (1)). veq; ring.
  - apply linear_derive. intros t Ht. apply Rabs_def2 in Ht. rewrite (lin_load_value g mass (h_K h) e (pitched t) P psi _ _ _ _ H (HP0 t)) by lra. f_equal. generalize (h_K h). intros []; geo; veq; ring.
  - eapply EQV; [exact D3|]. generalize (h_K h). intros []; geo. change (-1) with (- (1)). veq; ring.
Qed.
(** The maker from a mesh file reduces the stiffness at the origin of the mesh, not at the centre of
    gravity: with a centre of gravity off the axis the matrix is not the derivative of the load at G,
    where the force applies it. *)
Theorem C124_mesh_maker_refuted : forall u m ls K0 rho g cog fc, floating u m ls -> rho * g <> 0 ->
  let wet := soup_of (verts m) (faces m) in let G := convert fc cog in let w := rho * g * volume (wet ++ caps ls) in
  vx G <> 0 -> waterplane (fun _ => 1) ls <> 0 ->
  exists h d, ComputeProperties u (HP_make K0 rho g m cog fc) = Some h /\ derive3 (fun t => load rho g wet w G G (heave t)) 0 d /\
    vz d <> - m20 (h_K h).
Proof.
  intros u m ls K0 rho g cog fc F RG. cbv zeta. intros XG W1.
  destruct (C36_stiffness_is_derivative u m ls K0 rho g cog cog fc F RG) as (h & E & D1 & _).
  destruct (C36_hydrostatic_properties u m ls K0 rho g cog cog fc F RG) as (h1 & E1 & P1). rewrite E in E1. assert (h1 = h) by congruence. subst h1. cbv zeta in P1.
  destruct P1 as (_ & _ & _ & _ & _ & _ & _ & _ & _ & _ & _ & _ & K35 & _ & _ & _ & SY).
  destruct (C36_hydrostatic_properties u m ls K0 rho g (convert fc cog) origin NWU F RG) as (h2 & E2 & P2). rewrite <- C36_default_reduction in E2. cbv zeta in P2.
  destruct P2 as (_ & _ & _ & _ & _ & _ & _ & _ & _ & _ & _ & _ & K35' & _ & _ & _ & SY').
  exists h2, (V (- m00 (h_K h)) (- m10 (h_K h)) (- m20 (h_K h))). split; [exact E2|]. split; [exact D1|]. cbn [vz].
  assert (A : m20 (h_K h) = GetK35 (h_K h)) by (rewrite <- SY at 1; reflexivity). assert (A' : m20 (h_K h2) = GetK35 (h_K h2)) by (rewrite <- SY' at 1; reflexivity).
  rewrite A, A', K35, K35', !wp_x. change (waterplane (mono POLY_1) ls) with (waterplane (fun _ => 1) ls). cbn [convert origin vx]. intros K.
  assert (Z : rho * g * (vx (convert fc cog) * waterplane (fun _ => 1) ls) = 0) by lra. apply Rmult_integral in Z. destruct Z as [Z|Z]; [contradiction|]. apply Rmult_integral in Z. tauto.
Qed.
(** Bow straight up with respect to the equilibrium frame: the roll angle is read uninitialised. *)
Theorem C124_vertical_refuted : forall g mass K e n s P psi d, stands (EF_GetFrame e) P psi -> displaced (NGetFrameInWorld n) P psi d 0 (- (PI / 2)) 0 ->
  LH_Compute g mass K e n s = None.
Proof.
  intros g mass K e n s P psi d H HD. destruct (perturbation_pose e n P psi d _ _ _ H HD) as (U & _ & Q). unfold LH_Compute. cbv zeta. set (D := GetPerturbationFrame e n) in *.
  unfold Rot_GetCardan_RADIANS; cbn [IsNED]. assert (E : Set_A_quaternion (frot D) = attitude 0 (- (PI / 2)) 0) by (apply mat_ext; intros x; rewrite qrotate_mat; apply Q).
  rewrite E. unfold mat2eul_xyz. assert (E20 : m20 (attitude 0 (- (PI / 2)) 0) = 1).
  { unfold attitude, Rx, Ry, Rz. geo. rewrite ?cos_0, ?sin_0, ?cos_neg, ?sin_neg, ?sin_PI2, ?cos_PI2. ring. }
  rewrite E20. destruct (Rlt_dec 1 1); [lra|]. reflexivity.
Qed.
(** A node at any displacement exists; the case of the mesh maker *)
Example C58_not_vacuous : let e := EF fident vzero 0 false 0 in
  stands (EF_GetFrame e) origin 0 /\ (forall t, exists n, displaced (NGetFrameInWorld n) origin 0 (V 0 0 t) 0 0 0) /\
  (forall phi theta, exists n, displaced (NGetFrameInWorld n) origin 0 origin phi theta 0).
Proof.
  cbv zeta. split; [apply stands_ident|]. split.
  - intros t. exists (Mk fident (MF (Fr (V 0 0 t) qone) vzero qzero)). split; [apply unitq_one|]. intros x. unfold NGetFrameInWorld; cbn [mk_abs mf_frame].
    change (GetPointPositionInParent (Fr (V 0 0 t) qone) x NWU) with (pmap (Fr (V 0 0 t) qone) x). rewrite pmap_eq; cbn [GeoModel.fpos frot]. rewrite qrotate_one, Rz_zero, origin_plus. f_equal.
    unfold attitude, Rx, Ry, Rz. rewrite !mv_mm, cos_0, sin_0. destruct x; geo; veq; ring.
  - intros phi theta. exists (Mk fident (MF (Fr origin (euler_to_quat phi theta 0)) vzero qzero)). split; [apply unitq_cardan|]. intros x. unfold NGetFrameInWorld; cbn [mk_abs mf_frame].
    change (GetPointPositionInParent (Fr origin (euler_to_quat phi theta 0)) x NWU) with (pmap (Fr origin (euler_to_quat phi theta 0)) x). rewrite pmap_eq; cbn [GeoModel.fpos frot].
    rewrite <- qrotate_mat, cardan_matrix, Rz_zero, !origin_plus. reflexivity.
Qed.

(** ** C59 *)
(** One update: the frame is a damped spring towards the body, horizontally and in heading.
    Restricted to headings of the frame and of the body in (-pi, pi]. *)
Theorem C59_step : forall s n si t P psi, stands (EF_GetFrame (sd_base s)) P psi -> shows n si -> - PI < psi <= PI -> - PI < s_heading si <= PI ->
  FLT_EPSILON <= Rabs (t - sd_prev s) ->
  let v := GetFrameVelocityInWorld (sd_base s) NWU in let w := vz (GetFrameAngularVelocity (sd_base s) NWU) in let h := t - sd_prev s in
  let v' := plus3 v (scal3 h (flat (plus3 (scal3 (sd_k s) (minus3 (s_pos si) P)) (scal3 (sd_c s) (minus3 (s_vel si) v))))) in
  let w' := w + h * (sd_k s * (s_heading si - psi) + sd_c s * (s_wz si - w)) in
  let s' := SD_Compute s n t in
  stands (EF_GetFrame (sd_base s')) (plus3 P (scal3 h v')) (psi + h * w') /\ GetFrameVelocityInWorld (sd_base s') NWU = v' /\
  GetFrameAngularVelocity (sd_base s') NWU = V 0 0 w' /\ sd_prev s' = t.
Proof.
  intros s n si t P psi S0 SH B1 B2 D. cbv zeta. destruct (sd_step s n si t P psi S0 SH B1 B2 D) as (A & B & C & _ & _ & E). split; [exact A|]. split; [exact B|]. split; [|exact E].
  unfold GetFrameAngularVelocity; cbn [IsNED vz]. rewrite C. reflexivity.
Qed.
(** Beside a body at rest, with steps h such that zeta + pi h / T < 1, the frame comes to the vertical
    of the node and takes its heading; its height does not change.  Restricted: the initial heading error
    and yaw rate are small enough not to cross the heading pi. *)
Theorem C59_converges : forall s0 T zeta h n si P psi, 0 < T -> 0 < zeta -> FLT_EPSILON <= h -> zeta + PI * h / T < 1 ->
  let s := SetSpringDamping s0 T zeta in
  stands (EF_GetFrame (sd_base s)) P psi -> vz (GetFrameVelocityInWorld (sd_base s) NWU) = 0 -> sd_prev s = 0 -> shows n si -> s_vel si = origin -> s_wz si = 0 -> - PI < s_heading si < PI ->
  exists room, 0 < room /\ (Rabs (psi - s_heading si) < room -> Rabs (ef_w (sd_base s)) < room ->
  forall eps, 0 < eps -> exists N, forall m, (N <= m)%nat -> exists X psi', stands (EF_GetFrame (sd_base (sd_run s n h m))) X psi' /\
    Rabs (vx X - vx (s_pos si)) < eps /\ Rabs (vy X - vy (s_pos si)) < eps /\ vz X = vz P /\ Rabs (psi' - s_heading si) < eps).
Proof.
  intros s0 T zeta h n si P psi HT HZ Hh HS s S0 VZ P0 SH V0 W0 B. assert (EP : 0 < FLT_EPSILON) by (unfold FLT_EPSILON; lra). assert (Hp : 0 < h) by lra.
  destruct (stable_facts T zeta h HT HZ Hp HS) as (Q & kap & KP & KB). pose proof (damped_small T zeta h HT HZ Hp HS) as DS. cbv zeta in *.
  set (w0 := 2 * PI / T) in *. set (k := w0 * w0) in *. set (c := 2 * zeta * w0) in *.
  assert (Ek : sd_k s = k) by reflexivity. assert (Ec : sd_c s = c) by reflexivity.
  set (A0 := PI - Rabs (s_heading si)). assert (HA : 0 < A0) by (unfold A0; assert (Rabs (s_heading si) < PI) by (apply Rabs_def1; lra); lra).
  set (L := Rabs k + Rabs (c - h * k) + Rabs (1 - c * h) + 1). assert (HL : 0 < L) by (unfold L; pose proof (Rabs_pos k); pose proof (Rabs_pos (c - h * k)); pose proof (Rabs_pos (1 - c * h)); lra).
  assert (HB : 0 < kap * A0 ^ 2 / L) by (apply Rdiv_lt_0_compat; [apply Rmult_lt_0_compat; [exact KP|apply pow_lt, HA]|exact HL]).
  exists (sqrt (kap * A0 ^ 2 / L)). split; [apply sqrt_lt_R0, HB|]. intros HY HW eps HE. set (r := sqrt _) in *.
  assert (R2 : r * r = kap * A0 ^ 2 / L) by (apply sqrt_sqrt; lra).
  set (y := psi - s_heading si) in *. set (w := ef_w (sd_base s)) in *.
  assert (EN : energy k c h (y, w) < kap * A0 ^ 2).
  { unfold energy; cbn [fst snd].
    assert (Y2 : y ^ 2 <= r * r) by (replace (y ^ 2) with (Rabs y * Rabs y) by (rewrite <- Rabs_mult, Rabs_pos_eq; [ring|nra]); pose proof (Rabs_pos y); nra).
    assert (W2 : w ^ 2 <= r * r) by (replace (w ^ 2) with (Rabs w * Rabs w) by (rewrite <- Rabs_mult, Rabs_pos_eq; [ring|nra]); pose proof (Rabs_pos w); nra).
    assert (YW : Rabs (y * w) <= r * r) by (rewrite Rabs_mult; pose proof (Rabs_pos y); pose proof (Rabs_pos w); nra).
    assert (T1 : k * y ^ 2 <= Rabs k * (r * r)) by (apply Rle_trans with (Rabs k * y ^ 2); [apply Rmult_le_compat_r; [nra|apply Rle_abs]|apply Rmult_le_compat_l; [apply Rabs_pos|exact Y2]]).
    assert (T2 : (c - h * k) * y * w <= Rabs (c - h * k) * (r * r)) by (rewrite Rmult_assoc; apply Rle_trans with (Rabs ((c - h * k) * (y * w))); [apply Rle_abs|rewrite Rabs_mult; apply Rmult_le_compat_l; [apply Rabs_pos|exact YW]]).
    assert (T3 : (1 - c * h) * w ^ 2 <= Rabs (1 - c * h) * (r * r)) by (apply Rle_trans with (Rabs (1 - c * h) * w ^ 2); [apply Rmult_le_compat_r; [nra|apply Rle_abs]|apply Rmult_le_compat_l; [apply Rabs_pos|exact W2]]).
    assert (RL : L * (r * r) = kap * A0 ^ 2) by (rewrite R2; field; lra). assert (0 < r * r) by (rewrite R2; exact HB). unfold L in RL. nra. }
  assert (RG : forall m, - PI < s_heading si + fst (damped (sd_k s) (sd_c s) h m (y, w)) <= PI) by (intros m; rewrite Ek, Ec; apply (heading_range k c h m y w (s_heading si) kap KP Q KB B EN)).
  pose proof (sd_rest s n si P psi h S0 SH V0 W0 B P0 Hh RG) as RUN.
  destruct (DS (vx P - vx (s_pos si), vx (ef_vel (sd_base s))) eps HE) as [N1 H1]. destruct (DS (vy P - vy (s_pos si), vy (ef_vel (sd_base s))) eps HE) as [N2 H2]. destruct (DS (y, w) eps HE) as [N3 H3].
  exists (N1 + N2 + N3)%nat. intros m Hm. specialize (RUN m). cbv zeta in RUN. destruct RUN as (A & _). rewrite Ek, Ec in A. eexists _, _. split; [exact A|]. cbn [vx vy vz].
  specialize (H1 m ltac:(lia)). specialize (H2 m ltac:(lia)). specialize (H3 m ltac:(lia)).
  assert (CA : forall a b, a + b - a = b) by (intros; ring). rewrite !CA. split; [exact H1|]. split; [exact H2|]. split; [|exact H3].
  unfold GetFrameVelocityInWorld in VZ; cbn [swap_if IsNED] in VZ. rewrite VZ. ring.
Qed.
(** Across the heading pi the difference of headings is not reduced: a body slightly to the left of
    the frame (2 delta) makes it turn right, almost a full turn. *)
Theorem C125_heading_wrap_refuted : forall s n si t P delta, 0 < delta < PI / 2 -> stands (EF_GetFrame (sd_base s)) P (PI - delta) -> shows n si ->
  s_heading si = - PI + delta -> s_wz si = 0 -> ef_w (sd_base s) = 0 -> 0 < sd_k s -> FLT_EPSILON <= t - sd_prev s ->
  (forall x, mv (Rz (s_heading si)) x = mv (Rz (PI - delta + 2 * delta)) x) /\
  vz (GetFrameAngularVelocity (sd_base (SD_Compute s n t)) NWU) = (t - sd_prev s) * sd_k s * (2 * delta - 2 * PI) /\
  vz (GetFrameAngularVelocity (sd_base (SD_Compute s n t)) NWU) < 0.
Proof.
  intros s n si t P delta D S0 SH HH W0 W KP DT. pose proof PI_RGT_0 as HP. assert (EP : 0 < FLT_EPSILON) by (unfold FLT_EPSILON; lra).
  destruct (sd_step s n si t P (PI - delta) S0 SH ltac:(lra) ltac:(lra) ltac:(rewrite Rabs_pos_eq; lra)) as (_ & _ & C & _). rewrite HH, W0, W in C.
  assert (E : vz (GetFrameAngularVelocity (sd_base (SD_Compute s n t)) NWU) = (t - sd_prev s) * sd_k s * (2 * delta - 2 * PI)) by (unfold GetFrameAngularVelocity; cbn [IsNED vz]; rewrite C; ring).
  split; [|split; [exact E|]].
  - intros x. rewrite HH. unfold Rz. replace (PI - delta + 2 * delta) with (- PI + delta + 2 * INR 1 * PI) by (cbn; ring). rewrite cos_period, sin_period. reflexivity.
  - rewrite E. assert (0 < (t - sd_prev s) * sd_k s) by (apply Rmult_lt_0_compat; lra). nra.
Qed.
(** Initialize does not reset the clock of the spring-damping frame: after a restart the next update
    goes back in time. *)
Theorem C125_restart_refuted : forall s n si t0 t P psi, stands (EF_GetFrame (sd_base s)) P psi -> shows n si -> - PI < psi <= PI -> s_heading si = psi ->
  s_wz si = 0 -> ef_w (sd_base s) = 0 -> ef_init (sd_base s) = false -> s_vel si = GetFrameVelocityInWorld (sd_base s) NWU -> flat (s_pos si) = flat P -> sd_prev s = t0 -> FLT_EPSILON <= t -> t + FLT_EPSILON <= t0 ->
  stands (EF_GetFrame (sd_base (SD_Compute (SD_Initialize s n) n t))) (plus3 P (scal3 (t - t0) (s_vel si))) psi.
Proof.
  intros s n si t0 t P psi S0 SH B HH W0 W I0 EV EX ET T1 T2. assert (EP : 0 < FLT_EPSILON) by (unfold FLT_EPSILON; lra). subst t0.
  assert (S1 : stands (ef_frame (sd_base (SD_Initialize s n))) P psi) by exact S0.
  destruct (sd_step (SD_Initialize s n) n si t P psi S1 SH B ltac:(lra)) as (A & _). { unfold SD_Initialize; cbn [sd_prev]. rewrite Rabs_left1; lra. }
  unfold SD_Initialize in A at 2 3 4 5 6 7 8 9 10 11 12 13; cbn [sd_prev sd_base sd_k sd_c EF_Initialize ef_vel ef_w] in A. unfold EF_GetFrame. 
  unfold GetFrameVelocityInWorld in EV; cbn [swap_if IsNED] in EV. revert A. cbn [EF_Initialize ef_vel ef_w]. rewrite I0, HH, W0, W, EV. intros A.
  match type of A with stands _ ?X ?Y => replace X with (plus3 P (scal3 (t - sd_prev s) (ef_vel (sd_base s)))) in A; [replace Y with psi in A by ring; exact A|] end.
  f_equal. f_equal. assert (X1 : vx (s_pos si) = vx P) by (unfold flat in EX; congruence). assert (X2 : vy (s_pos si) = vy P) by (unfold flat in EX; congruence).
  unfold flat, plus3, scal3, minus3; cbn [vx vy vz]. rewrite X1, X2. apply vec_eq; cbn [vx vy vz]; ring.
Qed.
Example C59_not_vacuous : exists n, shows n (Sight (V 1 2 3) origin 0 1) /\ (/ 2) + PI * (/ 10) / 60 < 1 /\ FLT_EPSILON <= / 10.
Proof.
  exists (Mk fident (MF (Fr (V 1 2 3) (euler_to_quat 0 0 1)) vzero qzero)). split.
  - pose proof PI_RGT_0. unfold shows; cbn [s_pos s_vel s_wz s_heading]. split; [reflexivity|]. split; [reflexivity|]. split. { unfold NGetAngularVelocityInWorld, swap_if; cbn [IsNED]. unfold Wvel_par, qim, vscale, qmul, qconj, qzero; cbn [mk_abs mf_qdt mf_frame frot vx vy vz q0 q1 q2 q3]. ring. }
    split; [apply unitq_cardan|]. exists 0, 0. split; [lra|]. intros x. unfold NGetFrameInWorld; cbn [mk_abs mf_frame].
    change (GetPointPositionInParent (Fr (V 1 2 3) (euler_to_quat 0 0 1)) x NWU) with (pmap (Fr (V 1 2 3) (euler_to_quat 0 0 1)) x). rewrite pmap_eq; cbn [GeoModel.fpos frot]. rewrite <- qrotate_mat, cardan_matrix. reflexivity.
  - split; [pose proof PI_4; lra|unfold FLT_EPSILON; lra].
Qed.

(** ** C60 *)
(** Body at constant velocity u and yaw rate w, any update times: without correction the frame moves
    at u and w -- from the time held by uninitialised memory. *)
Theorem C60_mean_motion : forall garbage b p rot fc T h phi theta psi u w l, reachable b -> (forall x, turn (body_map b) x = mv (attitude phi theta psi) x) -> - (PI / 2) < theta < PI / 2 ->
  0 < h <= T -> (forall t n, In (t, n) l -> NGetVelocityInWorld n NWU = u /\ vz (NGetAngularVelocityInWorld n NWU) = w) -> spaced FLT_EPSILON garbage (map fst l) ->
  let '(b', s) := MM_make garbage b p rot fc T h in let dt := last (map fst l) garbage - garbage in
  stands (EF_GetFrame (mm_base (mm_run s l))) (plus3 (body_map b (convert fc p)) (scal3 dt u)) (psi + yaw_in fc rot + dt * w).
Proof.
  intros garbage b p rot fc T h phi theta psi u w l RB A TH HT HN SP. pose proof (created b p rot fc phi theta psi RB A TH) as K. unfold MM_make. destruct (EF_make b p rot fc) as [b' e]. destruct K as (K1 & _). cbv zeta.
  assert (CP : (1 <= capacity T h)%nat).
  { unfold capacity. assert (1 <= T / h) by (apply (Rmult_le_reg_r h); [lra|]; unfold Rdiv; rewrite Rmult_assoc, Rinv_l by lra; lra).
    destruct (base_Int_part (T / h)) as [I1 I2]. assert (LZ : (0 < Int_part (T / h))%Z) by (apply lt_IZR; lra). lia. }
  assert (P0 : mm_pose (MM e (newVrec T h) (newRecorder T h) None garbage) (body_map b (convert fc p)) (psi + yaw_in fc rot) u w garbage garbage).
  { unfold mm_pose; cbn [mm_base mm_vel mm_wz mm_corr mm_prev]. split; [|split; [|split; [|split]]]; try reflexivity.
    - unfold EF_GetFrame in K1. unfold Rminus. rewrite Rplus_opp_r, Rmult_0_l, Rplus_0_r. match goal with |- stands _ ?X _ => replace X with (body_map b (convert fc p)); [exact K1|] end.
      symmetry. apply vec_eq; unfold plus3, scal3; cbn [vx vy vz]; ring.
    - unfold const_vrec, newVrec, const_rec, newRecorder; cbn [vr_x vr_y vr_z r_cap r_data]. repeat split; try exact CP; intros x [].
    - split; [exact CP|]. intros x []. }
  destruct (mm_run_ok l _ _ _ _ _ _ _ P0 HN SP) as (R1 & _). exact R1.
Qed.
(** Two runs of the same program differ by what the memory held. *)
Theorem C126_uninitialised_refuted : forall b p rot fc T h phi theta psi u w t n, reachable b -> (forall x, turn (body_map b) x = mv (attitude phi theta psi) x) -> - (PI / 2) < theta < PI / 2 ->
  0 < h <= T -> NGetVelocityInWorld n NWU = u -> vz (NGetAngularVelocityInWorld n NWU) = w -> u <> origin -> 1 <= t ->
  EF_GetPositionInWorld (mm_base (mm_run (snd (MM_make 0 b p rot fc T h)) [(t, n)])) NWU <> EF_GetPositionInWorld (mm_base (mm_run (snd (MM_make (-1) b p rot fc T h)) [(t, n)])) NWU.
Proof.
  intros b p rot fc T h phi theta psi u w t n RB A TH HT EU EW NU Ht. assert (HN : forall t' n', In (t', n') [(t, n)] -> NGetVelocityInWorld n' NWU = u /\ vz (NGetAngularVelocityInWorld n' NWU) = w) by (intros t' n' [E|[]]; injection E as <- <-; auto).
  assert (EP : FLT_EPSILON < 1) by (unfold FLT_EPSILON; lra).
  pose proof (C60_mean_motion 0 b p rot fc T h phi theta psi u w [(t, n)] RB A TH HT HN ltac:(cbn [map fst spaced]; split; [rewrite Rabs_pos_eq; lra|exact I])) as A1.
  pose proof (C60_mean_motion (-1) b p rot fc T h phi theta psi u w [(t, n)] RB A TH HT HN ltac:(cbn [map fst spaced]; split; [rewrite Rabs_pos_eq; lra|exact I])) as A2.
  destruct (MM_make 0 b p rot fc T h) as [b1 s1]. destruct (MM_make (-1) b p rot fc T h) as [b2 s2]. cbn [snd map fst last] in *. cbv zeta in *.
  unfold EF_GetPositionInWorld. unfold EF_GetFrame in *. rewrite (stands_pos _ _ _ A1), (stands_pos _ _ _ A2). intros E. apply plus_cancel in E. apply NU.
  destruct u as [a b0 c]. unfold scal3, origin in *; cbn [vx vy vz] in *. injection E. intros. f_equal; lra.
Qed.
Example C60_not_vacuous : exists n, NGetVelocityInWorld n NWU = V 3 0 0 /\ vz (NGetAngularVelocityInWorld n NWU) = 0 /\ V 3 0 0 <> origin.
Proof.
  exists (Mk fident (MF fident (V 3 0 0) qzero)). split; [reflexivity|]. split; [|intro E; injection E; intros; lra]. unfold NGetAngularVelocityInWorld, swap_if; cbn [IsNED]. unfold Wvel_par, qim, vscale, qmul, qconj, qzero; cbn [mk_abs mf_qdt mf_frame frot vx vy vz q0 q1 q2 q3]. ring.
Qed.
