(** Proofs for the links: turns, rest angle, springs, motors. *)
From Coq Require Import Reals List Bool Lra Psatz Lia ZArith.
From Verif Require Import SeaModel GeoModel GeoSpec GeoProofs GeoProofs3 BodyModel BodySpec BodyProofs3 WavProofs3 MorSpec LnkModel LnkSpec LnkProofs LnkProofs2.
Import ListNotations.
Open Scope R_scope.
Local Notation turn := BodySpec.turn.

Lemma Int_part_Z n : Int_part (IZR n) = n.
Proof.
  pose proof (Int_part_bounds (IZR n)) as [A B]. assert (A1 : (Int_part (IZR n) <= n)%Z) by (apply le_IZR; lra). assert (B1 : (n < Int_part (IZR n) + 1)%Z) by (apply lt_IZR; rewrite plus_IZR; lra). lia.
Qed.
Lemma trunc_Z n : trunc (IZR n) = n.
Proof. unfold trunc. destruct (Rle_dec 0 (IZR n)); [apply Int_part_Z|]. rewrite <- opp_IZR, Int_part_Z. lia. Qed.
Lemma turns_ok r : GetRelativeLinkAngle r + 2 * PI * IZR (GetNbTurns r) = GetLinkAngle r /\ Rabs (GetRelativeLinkAngle r + GetRestAngle r) < 2 * PI.
Proof.
  pose proof PI_RGT_0. unfold GetNbTurns, GetRelativeLinkAngle, GetLinkAngle, GetRestAngle, fmod_2PI. set (t := trunc (rv_total r / (2 * PI))).
  replace ((rv_total r - rv_rest r - (rv_total r - 2 * PI * IZR t - rv_rest r)) / (2 * PI)) with (IZR t) by (field; lra). rewrite trunc_Z. split; [ring|].
  unfold t. pose proof (fmod_bounds (rv_total r)) as F. unfold fmod_2PI in F. replace (rv_total r - 2 * PI * IZR (trunc (rv_total r / (2 * PI))) - rv_rest r + rv_rest r) with (rv_total r - 2 * PI * IZR (trunc (rv_total r / (2 * PI)))) by ring. exact F.
Qed.
(** the angle of a rotation about z by a *)
Lemma angle_pos q a : Rabs a < PI -> Rabs (q0 q) = cos (a / 2) -> 0 <= q0 q -> (sharp a -> GetAngle q = Rabs a) /\ (~ sharp a -> GetAngle q = 0).
Proof.
  intros H E Q0. pose proof PI_RGT_0. assert (AB := Rabs_pos a). assert (C : Rabs (cos (a / 2)) = cos (a / 2)) by (rewrite <- E; apply Rabs_right, Rle_ge, Rabs_pos).
  assert (CR : cos (a / 2) = cos (Rabs a / 2)). { unfold Rabs. destruct (Rcase_abs a); [|reflexivity]. rewrite <- cos_neg. f_equal. field. }
  unfold GetAngle, Q_to_AngAxis, sharp. rewrite E, C. split; intros S; destruct (Rlt_dec _ _) as [L|L]; try contradiction; cbv zeta; cbn [snd]; [|reflexivity].
  rewrite (Rabs_right (q0 q)) in E by lra. rewrite E, CR, acos_cos by lra. field.
Qed.
Lemma dead_small a : Rabs a < PI -> ~ sharp a -> Rabs a <= DEAD.
Proof.
  intros H S. destruct (dead_near a S) as [k K]. pose proof DEAD_range. pose proof PI_RGT_0. assert (k = 0%Z).
  { apply abs_between in K. apply Rabs_def2 in H. assert (A : IZR k < 1) by nra. assert (B : IZR (-1) < IZR k) by nra. apply lt_IZR in B. apply (lt_IZR k 1) in A. lia. }
  subst k. replace (a + 2 * PI * 0) with a in K by ring. exact K.
Qed.
Lemma setrot_q0 f a : q0 (frot (SetRotZ_RADIANS f a NWU)) = cos (a / 2).
Proof. unfold SetRotZ_RADIANS, RotZ_RADIANS, SetIdentity, fident, Q_from_AngAxis, qmul, qone. cbn [IsNED frot q0 q1 q2 q3 vx vy vz]. ring. Qed.
Lemma rest_angle r a : Rabs a < PI -> let g := GetRestAngle (rev_step (RSetRestAngle a) r) in (sharp a -> g = Rabs a) /\ (~ sharp a -> g = 0 /\ Rabs a <= DEAD).
Proof.
  intros H g. unfold g, GetRestAngle. cbn [rev_step rv_rest]. pose proof (setrot_q0 (rv_ref r) a) as Q. set (q := frot (SetRotZ_RADIANS (rv_ref r) a NWU)) in *. clearbody q. pose proof PI_RGT_0.
  assert (CP : 0 <= cos (a / 2)) by (apply Rabs_def2 in H; apply cos_ge_0; lra). destruct (angle_pos q a H) as [A B]; [rewrite Q; apply Rabs_right; lra|lra|].
  split; intros S.
  - rewrite (A S). apply norm_pi_id. pose proof (Rabs_pos a). lra.
  - rewrite (B S). split; [apply norm_pi_id; lra|apply dead_small; assumption].
Qed.

(** ** Joints *)
Lemma Rz_z th x : mv (Rz th) (V 0 0 x) = V 0 0 x.
Proof. apply vec_eq; unfold mv, Rz, dot3; cbn [vx vy vz m00 m01 m02 m10 m11 m12 m20 m21 m22]; ring. Qed.
Lemma hinge_axis m1 m2 th x : hinge m1 m2 th -> node_axes m2 (V 0 0 x) = node_axes m1 (V 0 0 x).
Proof. intros H. unfold node_axes, turn. rewrite !H. unfold origin. rewrite !Rz_z. reflexivity. Qed.
Lemma hinge_place m1 m2 th : hinge m1 m2 th -> node_place m2 = node_place m1.
Proof. intros H. unfold node_place. rewrite H. unfold origin. rewrite Rz_z. reflexivity. Qed.
Lemma slide_axes b1 i1 m1 m2 z x : has_node b1 i1 m1 -> slide m1 m2 z -> node_axes m2 x = node_axes m1 x.
Proof.
  intros H1 H. destruct (node_facts _ _ _ H1) as (q & _ & U & _). unfold node_axes, turn. rewrite !H. rewrite !act_eq, !qrotate_plus3 by exact U. generalize (fpos (NGetFrameInWorld m1)) (qrotate (frot (NGetFrameInWorld m1)) (V 0 0 z)) (qrotate (frot (NGetFrameInWorld m1)) x) (qrotate (frot (NGetFrameInWorld m1)) origin). intros a b c d. v3.
Qed.
Lemma slide_place b1 i1 m1 m2 z : has_node b1 i1 m1 -> slide m1 m2 z -> node_place m2 = plus3 (node_place m1) (node_axes m1 (V 0 0 z)).
Proof.
  intros H1 H. destruct (node_facts _ _ _ H1) as (q & _ & U & _). unfold node_place. rewrite H, (axes_rot _ _ _ H1). rewrite !act_eq, !qrotate_plus3, qr_origin by exact U. v3.
Qed.
Lemma axes_scal b i m k x : has_node b i m -> node_axes m (scal3 k x) = scal3 k (node_axes m x).
Proof. intros H. rewrite !(axes_rot _ _ _ H). apply qr_scal. Qed.
Lemma axes_dot b i m x y : has_node b i m -> dot3 (node_axes m x) (node_axes m y) = dot3 x y.
Proof. intros H. destruct (node_facts _ _ _ H) as (q & _ & U & _). rewrite !(axes_rot _ _ _ H). apply qrotate_dot. exact U. Qed.
Lemma axes_0 b i m : has_node b i m -> node_axes m origin = origin.
Proof. intros H. rewrite (axes_rot _ _ _ H). apply qr_origin. Qed.
Lemma power_same w w' P v om : same_wrench w w' -> power_on w P v om = power_on w' P v om.
Proof. intros [A B]. unfold power_on. rewrite A, B. reflexivity. Qed.
(** a torque about the hinge *)
Lemma hinge_torque b1 i1 m1 b2 i2 m2 th x : has_node b1 i1 m1 -> has_node b2 i2 m2 -> hinge m1 m2 th ->
  opposite (wrench_at_node m1 origin (V 0 0 (- x))) (wrench_at_node m2 origin (V 0 0 x)).
Proof.
  intros H1 H2 G. unfold opposite, wrench_at_node, moment_of. cbn [w_force w_moment w_point]. rewrite (hinge_axis _ _ _ _ G), (hinge_place _ _ _ G), (axes_0 _ _ _ H1), (axes_0 _ _ _ H2).
  replace (V 0 0 (- x)) with (scal3 (-1) (V 0 0 x)) by v3. rewrite (axes_scal _ _ _ _ _ H1). split; [v3|]. intros P. generalize (node_axes m1 (V 0 0 x)) (node_place m1). intros a b. v3.
Qed.
Lemma hinge_power b1 i1 m1 b2 i2 m2 th x rf rt P1 u1 w1 P2 u2 w2 : has_node b1 i1 m1 -> has_node b2 i2 m2 -> hinge m1 m2 th -> velocity_reads_everywhere b1 P1 u1 w1 -> velocity_reads_everywhere b2 P2 u2 w2 ->
  power_on (wrench_at_node m1 origin (V 0 0 (- x))) P1 u1 w1 + power_on (wrench_at_node m2 origin (V 0 0 x)) P2 u2 w2 = x * vz (c_w21 (GenerateCache m1 m2 rf rt)) /\
  vz (c_w21 (GenerateCache m1 m2 rf rt)) = dot3 (minus3 w2 w1) (node_axes m1 (V 0 0 1)).
Proof.
  intros H1 H2 G V1 V2. destruct (velocities _ _ _ _ _ _ rf rt _ _ _ _ _ _ H1 H2 V1 V2) as (_ & W & _). unfold GetAngularVelocityOfNode2WRTNode1 in W.
  assert (E : vz (c_w21 (GenerateCache m1 m2 rf rt)) = dot3 (minus3 w2 w1) (node_axes m1 (V 0 0 1))). { rewrite <- W, (axes_dot _ _ _ _ _ H1). unfold dot3. cbn [vx vy vz]. ring. }
  split; [|exact E]. rewrite E. unfold power_on, wrench_at_node, moment_of. cbn [w_force w_moment w_point]. rewrite (hinge_axis _ _ _ _ G), (axes_0 _ _ _ H1), (axes_0 _ _ _ H2).
  replace (V 0 0 (- x)) with (scal3 (- x) (V 0 0 1)) by v3. replace (V 0 0 x) with (scal3 x (V 0 0 1)) by v3. rewrite !(axes_scal _ _ _ _ _ H1). generalize (node_axes m1 (V 0 0 1)) (node_place m1) (node_place m2). intros a b c.
  unfold dot3, plus3, cross3, minus3, scal3, origin. cbn [vx vy vz]. ring.
Qed.
(** a force along the slide *)
Lemma slide_force b1 i1 m1 b2 i2 m2 z x : has_node b1 i1 m1 -> has_node b2 i2 m2 -> slide m1 m2 z ->
  opposite (wrench_at_node m1 (V 0 0 (- x)) origin) (wrench_at_node m2 (V 0 0 x) origin).
Proof.
  intros H1 H2 G. unfold opposite, wrench_at_node, moment_of. cbn [w_force w_moment w_point]. rewrite !(slide_axes _ _ _ _ _ _ H1 G), (slide_place _ _ _ _ _ H1 G), (axes_0 _ _ _ H1).
  replace (V 0 0 (- x)) with (scal3 (- x) (V 0 0 1)) by v3. replace (V 0 0 x) with (scal3 x (V 0 0 1)) by v3. replace (V 0 0 z) with (scal3 z (V 0 0 1)) by v3. rewrite !(axes_scal _ _ _ _ _ H1). generalize (node_axes m1 (V 0 0 1)) (node_place m1). intros a b. split; [v3|]. intros P. v3.
Qed.
Lemma slide_power b1 i1 m1 b2 i2 m2 z x rf rt P1 u1 w1 P2 u2 w2 : has_node b1 i1 m1 -> has_node b2 i2 m2 -> slide m1 m2 z -> velocity_reads_everywhere b1 P1 u1 w1 -> velocity_reads_everywhere b2 P2 u2 w2 ->
  power_on (wrench_at_node m1 (V 0 0 (- x)) origin) P1 u1 w1 + power_on (wrench_at_node m2 (V 0 0 x) origin) P2 u2 w2 = x * vz (c_v21 (GenerateCache m1 m2 rf rt)) /\
  vz (c_v21 (GenerateCache m1 m2 rf rt)) = dot3 (minus3 (rigid_velocity P2 u2 w2 (node_place m2)) (rigid_velocity P1 u1 w1 (node_place m2))) (node_axes m1 (V 0 0 1)).
Proof.
  intros H1 H2 G V1 V2. destruct (velocities _ _ _ _ _ _ rf rt _ _ _ _ _ _ H1 H2 V1 V2) as (W & _). unfold GetVelocityOfNode2WRTNode1 in W.
  assert (E : vz (c_v21 (GenerateCache m1 m2 rf rt)) = dot3 (minus3 (rigid_velocity P2 u2 w2 (node_place m2)) (rigid_velocity P1 u1 w1 (node_place m2))) (node_axes m1 (V 0 0 1))). { rewrite <- W, (axes_dot _ _ _ _ _ H1). unfold dot3. cbn [vx vy vz]. ring. }
  split; [|exact E]. rewrite E. unfold power_on, wrench_at_node, moment_of, rigid_velocity. cbn [w_force w_moment w_point]. rewrite !(slide_axes _ _ _ _ _ _ H1 G), !(slide_place _ _ _ _ _ H1 G), (axes_0 _ _ _ H1).
  replace (V 0 0 (- x)) with (scal3 (- x) (V 0 0 1)) by v3. replace (V 0 0 x) with (scal3 x (V 0 0 1)) by v3. replace (V 0 0 z) with (scal3 z (V 0 0 1)) by v3. rewrite !(axes_scal _ _ _ _ _ H1). generalize (node_axes m1 (V 0 0 1)) (node_place m1). intros a b.
  unfold dot3, plus3, cross3, minus3, scal3, origin. cbn [vx vy vz]. ring.
Qed.

(** ** The spring of a revolute link *)
Lemma rev_spring r m1 m2 rf rt : rv_motor r = None -> let r' := RUpdate r m1 m2 rf rt in
  rv_spring r' = Spring origin (V 0 0 (GetLinkTorque r')) /\ GetLinkTorque r' = - (rv_k r * GetLinkAngle r' + rv_c r * GetLinkAngularVelocity r').
Proof.
  intros M r'. assert (S : rv_spring r' = Spring origin (V 0 0 (- (rv_k r * GetLinkAngle r' + rv_c r * GetLinkAngularVelocity r')))).
  { unfold r', RUpdate. rewrite M. cbv zeta. cbn [rv_spring]. unfold SetLinkForceTorque, GetLinkAngle, GetLinkAngularVelocity. cbn [rv_total rv_rest rv_w]. f_equal; [v3|]. set (p := GetPosition _ _). clearbody p. v3. }
  assert (L : GetLinkTorque r' = - (rv_k r * GetLinkAngle r' + rv_c r * GetLinkAngularVelocity r')).
  { unfold GetLinkTorque, GetSpringDamperTorqueOnNode2. rewrite S. reflexivity. }
  split; [rewrite S, <- L; reflexivity|exact L].
Qed.
Lemma rev_motorised r m1 m2 rf rt : rv_motor r <> None -> rv_spring (RUpdate r m1 m2 rf rt) = Spring origin origin.
Proof. intros M. unfold RUpdate. cbv zeta. cbn [rv_spring]. destruct (rv_motor r); [reflexivity|congruence]. Qed.
Lemma pri_spring r b1 i1 m1 b2 i2 m2 rf rt z : has_node b1 i1 m1 -> has_node b2 i2 m2 -> slide m1 m2 z -> pr_motor r = None -> let r' := PUpdate r m1 m2 rf rt in
  pr_spring r' = Spring (V 0 0 (GetLinkForce r')) origin /\ GetLinkForce r' = - (pr_k r * GetLinkPosition r' + pr_c r * GetLinkVelocity r') /\ GetLinkPosition r' = z - GetRestLength r.
Proof.
  intros H1 H2 G M r'. destruct (frames_ok _ _ _ _ _ _ rf rt H1 H2) as (_ & _ & A & B). specialize (A NWU). specialize (B NWU). cbn [convert] in A, B.
  destruct (node_facts _ _ _ H1) as (q & _ & U & _). destruct (node_facts _ _ _ H2) as (qb & _ & U2 & _).
  assert (P21 : GetNode2PositionWRTNode1 (GenerateCache m1 m2 rf rt) NWU = V 0 0 z).
  { apply (rel_inj _ _ _ _ _ H1). rewrite A. unfold node_place. rewrite G. f_equal. v3. }
  assert (P12 : GetNode1PositionWRTNode2 (GenerateCache m1 m2 rf rt) NWU = V 0 0 (- z)).
  { apply (rel_inj _ _ _ _ _ H2). rewrite B, G. unfold node_place. f_equal. v3. }
  assert (S : pr_spring r' = Spring (V 0 0 (- (pr_k r * GetLinkPosition r' + pr_c r * GetLinkVelocity r'))) origin).
  { unfold r', PUpdate. rewrite M. cbv zeta. cbn [pr_spring]. unfold SetLinkForceTorque, GetLinkPosition, GetLinkVelocity. cbn [pr_pos pr_rest pr_vel]. unfold GetNode1PositionWRTNode2 in P12. rewrite P12. f_equal; v3. }
  assert (L : GetLinkForce r' = - (pr_k r * GetLinkPosition r' + pr_c r * GetLinkVelocity r')).
  { unfold GetLinkForce, GetSpringDamperForceOnNode2. rewrite S. reflexivity. }
  split; [rewrite S, <- L; reflexivity|]. split; [exact L|]. unfold r', PUpdate, GetLinkPosition, GetRestLength. cbv zeta. cbn [pr_pos pr_rest]. rewrite P21. reflexivity.
Qed.
Lemma pri_motorised r m1 m2 rf rt : pr_motor r <> None -> pr_spring (PUpdate r m1 m2 rf rt) = Spring origin origin.
Proof. intros M. unfold PUpdate. cbv zeta. cbn [pr_spring]. destruct (pr_motor r); [reflexivity|congruence]. Qed.
(** a spring given on node 2, on the bodies *)
Lemma spring_bodies s b1 i1 m1 b2 i2 m2 : has_node b1 i1 m1 -> has_node b2 i2 m2 ->
  same_wrench (wrench_at_cog b1 (GetSpringDamperForceOnBody1 s m1 NWU) (GetSpringDamperTorqueOnBody1AtCOG s m1 NWU)) (wrench_at_node m1 (scal3 (-1) (s_force s)) (scal3 (-1) (s_torque s))) /\
  same_wrench (wrench_at_cog b2 (GetSpringDamperForceOnBody2 s m2 NWU) (GetSpringDamperTorqueOnBody2AtCOG s m2 NWU)) (wrench_at_node m2 (s_force s) (s_torque s)) /\
  (forall fc, GetSpringDamperForceOnBody1 s m1 fc = convert fc (GetSpringDamperForceOnBody1 s m1 NWU) /\ GetSpringDamperForceOnBody2 s m2 fc = convert fc (GetSpringDamperForceOnBody2 s m2 NWU) /\
              GetSpringDamperTorqueOnBody1AtCOG s m1 fc = convert fc (GetSpringDamperTorqueOnBody1AtCOG s m1 NWU) /\ GetSpringDamperTorqueOnBody2AtCOG s m2 fc = convert fc (GetSpringDamperTorqueOnBody2AtCOG s m2 NWU)).
Proof.
  intros H1 H2. unfold GetSpringDamperForceOnBody1, GetSpringDamperForceOnBody2, GetSpringDamperTorqueOnBody1AtCOG, GetSpringDamperTorqueOnBody2AtCOG, GetSpringDamperForceOnNode1, GetSpringDamperForceOnNode2, GetSpringDamperTorqueOnNode1, GetSpringDamperTorqueOnNode2.
  split; [|split].
  - rewrite !swap_convert. cbn [convert]. rewrite <- !neg3. apply (node_wrench _ _ _ _ _ H1).
  - rewrite !swap_convert. cbn [convert]. apply (node_wrench _ _ _ _ _ H2).
  - intros fc. rewrite !swap_convert. cbn [convert]. destruct (conv_body m1 (vneg (s_force s)) (vneg (s_torque s)) fc) as [A B]. destruct (conv_body m2 (s_force s) (s_torque s) fc) as [C E]. auto.
Qed.
