(** Links (C170 - C192). *)
From Coq Require Import Reals List Bool Lra Psatz Lia ZArith.
From Verif Require Import SeaModel GeoModel GeoSpec GeoProofs GeoProofs3 BodyModel BodySpec BodyProofs BodyProofs2 BodyProofs3 WavProofs3 MorSpec LnkModel LnkSpec LnkProofs LnkProofs2 LnkProofs3 LnkProofs4 LnkProofs5 LnkProofs6.
Import ListNotations.
Open Scope R_scope.
Local Notation turn := BodySpec.turn.

Theorem C170_relative_frames : forall b1 i1 m1 b2 i2 m2 rf rt, has_node b1 i1 m1 -> has_node b2 i2 m2 -> let c := GenerateCache m1 m2 rf rt in
  (forall x, act (NGetFrameInWorld m1) (act (c_21 c) x) = act (NGetFrameInWorld m2) x) /\
  (forall x, act (NGetFrameInWorld m2) (act (c_12 c) x) = act (NGetFrameInWorld m1) x) /\
  (forall fc, act (NGetFrameInWorld m1) (convert fc (GetNode2PositionWRTNode1 c fc)) = node_place m2) /\
  (forall fc, act (NGetFrameInWorld m2) (convert fc (GetNode1PositionWRTNode2 c fc)) = node_place m1).
Proof. exact frames_ok. Qed.
(** the two nodes used in the examples: one on a body at rest, one on a body turned by a quarter about z *)
Example C170_used : has_node base 0 base_node /\ has_node (sample (rotz (- (PI / 2))) origin origin origin) 0 turned.
Proof. split; [apply base_ok|apply turned_ok]. Qed.

Theorem C171_relative_velocities : forall b1 i1 m1 b2 i2 m2 rf rt P1 u1 w1 P2 u2 w2, has_node b1 i1 m1 -> has_node b2 i2 m2 ->
  velocity_reads_everywhere b1 P1 u1 w1 -> velocity_reads_everywhere b2 P2 u2 w2 ->
  let c := GenerateCache m1 m2 rf rt in let U1 := rigid_velocity P1 u1 w1 in let U2 := rigid_velocity P2 u2 w2 in
  node_axes m1 (GetVelocityOfNode2WRTNode1 c NWU) = minus3 (U2 (node_place m2)) (U1 (node_place m2)) /\
  node_axes m1 (GetAngularVelocityOfNode2WRTNode1 c NWU) = minus3 w2 w1 /\
  node_axes m2 (GetAngularVelocityOfNode1WRTNode2 c NWU) = minus3 w1 w2 /\
  (w1 = w2 -> node_axes m2 (GetVelocityOfNode1WRTNode2 c NWU) = minus3 (U1 (node_place m1)) (U2 (node_place m1))).
Proof.
  intros b1 i1 m1 b2 i2 m2 rf rt P1 u1 w1 P2 u2 w2 H1 H2 V1 V2 c U1 U2. destruct (velocities _ _ _ _ _ _ rf rt _ _ _ _ _ _ H1 H2 V1 V2) as (A & B & C & D).
  split; [exact A|]. split; [exact B|]. split; [exact C|]. intros E. subst w2. unfold c. rewrite D. unfold U1, U2, rigid_velocity. v3.
Qed.
Example C171_used : velocity_reads_everywhere base origin origin origin /\ velocity_reads_everywhere (sample qone (V 1 0 0) origin (V 0 0 1)) origin origin (V 0 0 1).
Proof. split; [apply base_ok|]. pose proof (proj2 (proj2 (sample_ok qone (V 1 0 0) origin (V 0 0 1) unitq_one))) as E. rewrite !qrotate_one in E. exact E. Qed.

(** The velocity of node 1 with respect to node 2 should be that of the point of body 1 at node 1 seen from body 2.
    Body 1 stands still at the origin; body 2 turns about the origin with a node at (1, 0, 0): node 1 does not move
    in the axes of body 2, and the reading is (0, -1, 0). *)
Theorem C172_velocity_of_node1_refuted : exists b1 m1 b2 m2 w2, has_node b1 0 m1 /\ has_node b2 0 m2 /\
  velocity_reads_everywhere b1 origin origin origin /\ velocity_reads_everywhere b2 origin origin w2 /\
  minus3 (rigid_velocity origin origin origin (node_place m1)) (rigid_velocity origin origin w2 (node_place m1)) = origin /\
  node_axes m2 (GetVelocityOfNode1WRTNode2 (GenerateCache m1 m2 origin origin) NWU) = V 0 (-1) 0.
Proof.
  destruct base_ok as (B & BA & _ & BV). destruct (sample_ok qone (V 1 0 0) origin (V 0 0 1) unitq_one) as (S1 & _ & SV). rewrite !qrotate_one in SV.
  exists base, base_node, (sample qone (V 1 0 0) origin (V 0 0 1)), (sample_node qone (V 1 0 0) origin (V 0 0 1)), (V 0 0 1). split; [exact B|]. split; [exact S1|]. split; [exact BV|]. split; [exact SV|].
  split; [unfold node_place; rewrite BA; unfold rigid_velocity; v3|]. destruct (velocities _ _ _ _ _ _ origin origin _ _ _ _ _ _ B S1 BV SV) as (_ & _ & _ & D). rewrite D. unfold node_place. rewrite sample_act, !qrotate_one by exact unitq_one. unfold rigid_velocity. v3.
Qed.

(** In the NED convention the y and z components should change sign; in that example the velocity of node 2 is
    (0, 1, 0) in both conventions. *)
Theorem C173_velocity_convention_refuted : exists b1 m1 b2 m2, has_node b1 0 m1 /\ has_node b2 0 m2 /\
  let c := GenerateCache m1 m2 origin origin in
  GetVelocityOfNode2WRTNode1 c NWU = V 0 1 0 /\ GetVelocityOfNode2WRTNode1 c NED = V 0 1 0 /\ convert NED (V 0 1 0) <> V 0 1 0.
Proof.
  destruct base_ok as (B & BA & _ & BV). destruct (sample_ok qone (V 1 0 0) origin (V 0 0 1) unitq_one) as (S1 & _ & SV). rewrite !qrotate_one in SV.
  exists base, base_node, (sample qone (V 1 0 0) origin (V 0 0 1)), (sample_node qone (V 1 0 0) origin (V 0 0 1)). split; [exact B|]. split; [exact S1|]. cbv zeta.
  destruct (velocities _ _ _ _ _ _ origin origin _ _ _ _ _ _ B S1 BV SV) as (A & _). unfold node_axes, turn in A. rewrite !BA in A. unfold node_place in A. rewrite sample_act, !qrotate_one in A by exact unitq_one.
  assert (E : GetVelocityOfNode2WRTNode1 (GenerateCache base_node (sample_node qone (V 1 0 0) origin (V 0 0 1)) origin origin) NWU = V 0 1 0).
  { etransitivity; [|etransitivity; [exact A|unfold rigid_velocity; v3]]. generalize (GetVelocityOfNode2WRTNode1 (GenerateCache base_node (sample_node qone (V 1 0 0) origin (V 0 0 1)) origin origin) NWU). intros a. v3. }
  split; [exact E|]. split; [exact E|]. intros X. pose proof (f_equal vy X) as Y. cbn [convert vx vy vz] in Y. lra.
Qed.

Theorem C174_reactions : forall b1 i1 m1 b2 i2 m2 rf rt, has_node b1 i1 m1 -> has_node b2 i2 m2 -> let c := GenerateCache m1 m2 rf rt in
  let w1 := wrench_at_cog b1 (GetLinkReactionForceOnBody1 c m1 NWU) (GetLinkReactionTorqueOnBody1AtCOG c m1 NWU) in
  let w2 := wrench_at_cog b2 (GetLinkReactionForceOnBody2 c m2 NWU) (GetLinkReactionTorqueOnBody2AtCOG c m2 NWU) in
  opposite w1 w2 /\ same_wrench w1 (wrench_at_node m1 rf rt) /\
  same_wrench w2 (wrench_at_node m2 (GetLinkReactionForceOnNode2 c NWU) (GetLinkReactionTorqueOnNode2 c NWU)) /\
  forall fc, GetLinkReactionForceOnBody1 c m1 fc = convert fc (GetLinkReactionForceOnBody1 c m1 NWU) /\
             GetLinkReactionForceOnBody2 c m2 fc = convert fc (GetLinkReactionForceOnBody2 c m2 NWU) /\
             GetLinkReactionTorqueOnBody1AtCOG c m1 fc = convert fc (GetLinkReactionTorqueOnBody1AtCOG c m1 NWU) /\
             GetLinkReactionTorqueOnBody2AtCOG c m2 fc = convert fc (GetLinkReactionTorqueOnBody2AtCOG c m2 NWU).
Proof.
  intros b1 i1 m1 b2 i2 m2 rf rt H1 H2 c w1 w2. split; [apply (opposite_nodes _ _ _ _ _ _ _ _ _ _ H1 H2), (reaction _ _ _ _ _ _ rf rt H1 H2)|]. split; [apply (node_wrench _ _ _ _ _ H1)|]. split; [apply (node_wrench _ _ _ _ _ H2)|].
  intros fc. unfold GetLinkReactionForceOnBody1, GetLinkReactionForceOnBody2, GetLinkReactionTorqueOnBody1AtCOG, GetLinkReactionTorqueOnBody2AtCOG, GetLinkReactionForceOnNode1, GetLinkReactionForceOnNode2, GetLinkReactionTorqueOnNode1, GetLinkReactionTorqueOnNode2.
  rewrite !swap_convert. destruct (conv_body m1 (c_f1 c) (c_t1 c) fc) as [A B]. destruct (conv_body m2 (c_f2 c) (c_t2 c) fc) as [C E]. auto.
Qed.
Example C174_used : exists b1 m1 b2 m2, has_node b1 0 m1 /\ has_node b2 0 m2 /\ GetLinkReactionForceOnBody1 (GenerateCache m1 m2 (V 1 2 3) (V 4 5 6)) m1 NWU <> origin.
Proof.
  destruct base_ok as (B & _). destruct turned_ok as (T & _). eexists _, _, _, _. split; [exact B|]. split; [exact T|]. intros X. destruct (C174_reactions _ _ _ _ _ _ (V 1 2 3) (V 4 5 6) B T) as (_ & [F _] & _). unfold wrench_at_cog, wrench_at_node in F. cbn [w_force] in F. rewrite X in F.
  assert (O : turn (body_map base) origin = origin) by (unfold turn; generalize (body_map base origin); intros a; v3). rewrite O in F. pose proof (f_equal (fun v => dot3 v v) F) as N. cbn beta in N. rewrite (axes_dot _ _ _ _ _ B) in N. unfold dot3, origin in N. cbn [vx vy vz] in N. lra.
Qed.

(** From a new link: whatever is done to the link between the updates, the angle read after them is that of the
    joint, whole turns included. *)
Theorem C175_angle_tracking : forall l h, hinge_history l h -> slow (PI - 2 * DEAD) 0 h ->
  let r := rev_run l new_revolute in
  Rabs (GetLinkAngle r + GetRestAngle r - last_angle 0 h) <= DEAD /\
  (h <> [] -> Rabs (cos (last_angle 0 h / 2)) < Q_LIMIT -> GetLinkAngle r + GetRestAngle r = last_angle 0 h).
Proof.
  intros l h H SL r. unfold GetLinkAngle, GetRestAngle. replace (rv_total r - rv_rest r + rv_rest r) with (rv_total r) by ring. apply track; [exact H| |exact SL].
  cbn [new_revolute rv_total]. rewrite Rminus_0_r, Rabs_R0. pose proof DEAD_range. lra.
Qed.
Example C175_used : hinge_history [RSetRestAngle 1; RStep base_node turned origin origin; RSetReference] [- (PI / 2)] /\ slow (PI - 2 * DEAD) 0 [- (PI / 2)].
Proof.
  split.
  - apply hh_rest. eapply hh_step; [apply base_ok|apply turned_ok|apply turned_ok|]. apply hh_ref, hh_nil.
  - pose proof DEAD_small. pose proof PI_RGT_0. cbn [slow]. split; [|exact I]. rewrite Rminus_0_r, Rabs_Ropp, Rabs_right; lra.
Qed.

Theorem C176_turns : forall r, GetRelativeLinkAngle r + 2 * PI * IZR (GetNbTurns r) = GetLinkAngle r /\ Rabs (GetRelativeLinkAngle r + GetRestAngle r) < 2 * PI.
Proof. exact turns_ok. Qed.
Example C176_used : let r := Rev 0 0 fident 0 7 0 (Spring vzero vzero) no_cache None in GetLinkAngle r = 7 /\ IZR (GetNbTurns r) <> 0.
Proof.
  cbv zeta. set (r := Rev _ _ _ _ _ _ _ _ _). assert (E : GetLinkAngle r = 7) by (unfold GetLinkAngle, r; cbn [rv_total rv_rest]; ring). split; [exact E|]. destruct (turns_ok r) as [A B]. intros Z. rewrite Z, E in A. unfold GetRestAngle, r in B. cbn [rv_rest] in B. fold r in B. rewrite Rplus_0_r in B.
  assert (GetRelativeLinkAngle r = 7) by lra. rewrite H, Rabs_right in B by lra. pose proof PI_4. pose proof PI2_3_2. 
  (* pi < 3.5 *) assert (P : PI < 7 / 2). { pose proof (PI_ineq 2) as [_ Q]. unfold tg_alt, PI_tg in Q. cbn in Q. lra. } lra.
Qed.

(** The rest angle is kept within DEAD for angles in [0, pi). *)
Theorem C177_rest_angle : forall r a, 0 <= a < PI -> let g := GetRestAngle (rev_step (RSetRestAngle a) r) in
  Rabs (g - a) <= DEAD /\ (Rabs (cos (a / 2)) < Q_LIMIT \/ a = 0 -> g = a).
Proof.
  intros r a H g. destruct (rest_angle r a) as [A B]; [rewrite Rabs_right; lra|]. fold g in A, B. rewrite (Rabs_right a) in A, B by lra. pose proof DEAD_range. split.
  - destruct (Rlt_dec (Rabs (cos (a / 2))) Q_LIMIT) as [S|S]; [rewrite (A S), Rminus_eq_0, Rabs_R0; lra|]. destruct (B S) as [-> L]. rewrite Rabs_left1 by lra. lra.
  - intros [S| ->]; [exact (A S)|]. apply B. unfold sharp. replace (0 / 2) with 0 by field. rewrite cos_0, Rabs_R1. unfold Q_LIMIT. lra.
Qed.
Example C177_used : 0 <= PI / 2 < PI /\ Rabs (cos (PI / 2 / 2)) < Q_LIMIT.
Proof. pose proof PI_RGT_0. split; [lra|apply sharp_quarter]. Qed.

(** Negative rest angles: SetRestAngle(a) should give GetRestAngle() = a, and a configuration taken as the reference
    should have the angle 0.  The rest angle is the unsigned angle of the rotation. *)
Theorem C178_negative_rest_angle_refuted :
  (forall r a, - PI < a < 0 -> Rabs (cos (a / 2)) < Q_LIMIT -> GetRestAngle (rev_step (RSetRestAngle a) r) = - a) /\
  exists b1 m1 b2 m2, has_node b1 0 m1 /\ has_node b2 0 m2 /\ hinge m1 m2 (- (PI / 2)) /\
    let r := rev_run [RStep m1 m2 origin origin; RSetReference] new_revolute in GetRestAngle r = PI / 2 /\ GetLinkAngle r = - PI.
Proof.
  pose proof PI_RGT_0. split.
  - intros r a H1 S. destruct (rest_angle r a) as [A _]; [rewrite Rabs_left; lra|]. rewrite (A S), Rabs_left; lra.
  - destruct base_ok as (B & _). destruct turned_ok as (T & G). eexists _, _, _, _. split; [exact B|]. split; [exact T|]. split; [exact G|]. cbv zeta. cbn [rev_run rev_step].
    set (s := RUpdate new_revolute base_node turned origin origin).
    assert (RA : Normalize__PI_PI (GetAngle (frot (c_21 (rv_cache s)))) = PI / 2). { change (c_21 (rv_cache s)) with (RelM base_node turned). rewrite turned_angle. apply norm_pi_id. lra. }
    unfold GetRestAngle, GetLinkAngle. cbn [rv_rest rv_total]. rewrite RA. split; [reflexivity|]. unfold s. rewrite turned_total. lra.
Qed.

(** Torque of the spring of a revolute link, wrenches on the bodies, power given to the two bodies. *)
Theorem C179_revolute_spring : forall r b1 i1 m1 b2 i2 m2 rf rt th P1 u1 w1 P2 u2 w2, has_node b1 i1 m1 -> has_node b2 i2 m2 -> hinge m1 m2 th ->
  velocity_reads_everywhere b1 P1 u1 w1 -> velocity_reads_everywhere b2 P2 u2 w2 ->
  let r' := rev_step (RStep m1 m2 rf rt) r in let s := rv_spring r' in
  let W1 := wrench_at_cog b1 (GetSpringDamperForceOnBody1 s m1 NWU) (GetSpringDamperTorqueOnBody1AtCOG s m1 NWU) in
  let W2 := wrench_at_cog b2 (GetSpringDamperForceOnBody2 s m2 NWU) (GetSpringDamperTorqueOnBody2AtCOG s m2 NWU) in
  GetLinkTorque r' = (match rv_motor r with None => - (rv_k r * GetLinkAngle r' + rv_c r * GetLinkAngularVelocity r') | Some _ => 0 end) /\
  GetLinkAngularVelocity r' = dot3 (minus3 w2 w1) (node_axes m1 (V 0 0 1)) /\
  opposite W1 W2 /\ same_wrench W2 (wrench_at_node m2 origin (V 0 0 (GetLinkTorque r'))) /\
  power_on W1 P1 u1 w1 + power_on W2 P2 u2 w2 = RGetLinkPower r' /\
  forall fc, GetSpringDamperTorqueOnBody1AtCOG s m1 fc = convert fc (GetSpringDamperTorqueOnBody1AtCOG s m1 NWU) /\ GetSpringDamperTorqueOnBody2AtCOG s m2 fc = convert fc (GetSpringDamperTorqueOnBody2AtCOG s m2 NWU).
Proof.
  intros r b1 i1 m1 b2 i2 m2 rf rt th P1 u1 w1 P2 u2 w2 H1 H2 G V1 V2 r' s W1 W2.
  assert (S : s = Spring origin (V 0 0 (GetLinkTorque r')) /\ GetLinkTorque r' = (match rv_motor r with None => - (rv_k r * GetLinkAngle r' + rv_c r * GetLinkAngularVelocity r') | Some _ => 0 end)).
  { unfold s, r'. cbn [rev_step]. destruct (rv_motor r) eqn:M; [|destruct (rev_spring r m1 m2 rf rt M); auto]. unfold GetLinkTorque, GetSpringDamperTorqueOnNode2. rewrite (rev_motorised r m1 m2 rf rt) by congruence. split; reflexivity. }
  destruct S as [S T]. split; [exact T|]. destruct (hinge_power _ _ _ _ _ _ _ (GetLinkTorque r') rf rt _ _ _ _ _ _ H1 H2 G V1 V2) as [PW WV]. split; [exact WV|].
  destruct (spring_bodies s _ _ _ _ _ _ H1 H2) as (A & B & C). rewrite S in A, B. cbn [s_force s_torque] in A, B. rewrite <- S in A, B.
  replace (scal3 (-1) origin) with origin in A by v3. replace (scal3 (-1) (V 0 0 (GetLinkTorque r'))) with (V 0 0 (- GetLinkTorque r')) in A by v3.
  split; [|split; [exact B|split; [|intros fc; destruct (C fc) as (_ & _ & C1 & C2); auto]]].
  - destruct (hinge_torque _ _ _ _ _ _ _ (GetLinkTorque r') H1 H2 G) as [O1 O2]. destruct A as [A1 A2], B as [B1 B2]. split; [unfold W1, W2; rewrite A1, B1; exact O1|]. intros P. unfold W1, W2. rewrite A2, B2. apply O2.
  - unfold W1, W2. rewrite (power_same _ _ _ _ _ A), (power_same _ _ _ _ _ B), PW. unfold RGetLinkPower, GetLinkAngularVelocity. change (rv_w r') with (vz (c_w21 (GenerateCache m1 m2 rf rt))). ring.
Qed.
Example C179_used : hinge base_node turned (- (PI / 2)) /\ GetLinkTorque (rev_step (RStep base_node turned origin origin) (rev_step (RSetSpringDamper 2 0) new_revolute)) = PI.
Proof.
  split; [apply turned_ok|]. set (r := rev_step (RSetSpringDamper 2 0) new_revolute). cbn [rev_step]. destruct (rev_spring r base_node turned origin origin eq_refl) as [_ ->]. unfold r, GetLinkAngle. cbn [rev_step rv_k rv_c].
  change (rv_total (RUpdate (Rev 2 0 (rv_ref new_revolute) (rv_rest new_revolute) (rv_total new_revolute) (rv_w new_revolute) (rv_spring new_revolute) (rv_cache new_revolute) (rv_motor new_revolute)) base_node turned origin origin)) with (rv_total (RUpdate new_revolute base_node turned origin origin)).
  rewrite turned_total. cbn [RUpdate rv_rest new_revolute]. lra.
Qed.

Theorem C180_prismatic_spring : forall r b1 i1 m1 b2 i2 m2 rf rt z P1 u1 w1 P2 u2 w2, has_node b1 i1 m1 -> has_node b2 i2 m2 -> slide m1 m2 z ->
  velocity_reads_everywhere b1 P1 u1 w1 -> velocity_reads_everywhere b2 P2 u2 w2 ->
  let r' := pri_step (PStep m1 m2 rf rt) r in let s := pr_spring r' in
  let W1 := wrench_at_cog b1 (GetSpringDamperForceOnBody1 s m1 NWU) (GetSpringDamperTorqueOnBody1AtCOG s m1 NWU) in
  let W2 := wrench_at_cog b2 (GetSpringDamperForceOnBody2 s m2 NWU) (GetSpringDamperTorqueOnBody2AtCOG s m2 NWU) in
  (pr_motor r = None ->
     GetLinkPosition r' = z - GetRestLength r /\ GetLinkForce r' = - (pr_k r * GetLinkPosition r' + pr_c r * GetLinkVelocity r') /\
     GetLinkVelocity r' = dot3 (minus3 (rigid_velocity P2 u2 w2 (node_place m2)) (rigid_velocity P1 u1 w1 (node_place m2))) (node_axes m1 (V 0 0 1)) /\
     opposite W1 W2 /\ same_wrench W2 (wrench_at_node m2 (V 0 0 (GetLinkForce r')) origin) /\
     power_on W1 P1 u1 w1 + power_on W2 P2 u2 w2 = PGetLinkPower r') /\
  (pr_motor r <> None -> s = Spring origin origin) /\
  (forall a, GetRestLength (pri_step (PSetRestLength a) r) = a) /\ GetLinkPosition (pri_step PSetReference r') = 0.
Proof.
  intros r b1 i1 m1 b2 i2 m2 rf rt z P1 u1 w1 P2 u2 w2 H1 H2 G V1 V2 r' s W1 W2. split; [|split; [apply pri_motorised|split; [reflexivity|]]].
  - intros M. destruct (pri_spring r _ _ _ _ _ _ rf rt z H1 H2 G M) as (S & F & L). fold r' in S, F, L. change (PUpdate r m1 m2 rf rt) with r' in S, F, L. fold s in S. split; [exact L|]. split; [exact F|].
    destruct (slide_power _ _ _ _ _ _ _ (GetLinkForce r') rf rt _ _ _ _ _ _ H1 H2 G V1 V2) as [PW WV]. split; [exact WV|].
    destruct (spring_bodies s _ _ _ _ _ _ H1 H2) as (A & B & _). rewrite S in A, B. cbn [s_force s_torque] in A, B. rewrite <- S in A, B.
    replace (scal3 (-1) origin) with origin in A by v3. replace (scal3 (-1) (V 0 0 (GetLinkForce r'))) with (V 0 0 (- GetLinkForce r')) in A by v3.
    split; [|split; [exact B|]].
    + destruct (slide_force _ _ _ _ _ _ _ (GetLinkForce r') H1 H2 G) as [O1 O2]. destruct A as [A1 A2], B as [B1 B2]. split; [unfold W1, W2; rewrite A1, B1; exact O1|]. intros P. unfold W1, W2. rewrite A2, B2. apply O2.
    + unfold W1, W2. rewrite (power_same _ _ _ _ _ A), (power_same _ _ _ _ _ B), PW. unfold PGetLinkPower, GetLinkVelocity. change (pr_vel r') with (vz (c_v21 (GenerateCache m1 m2 rf rt))). ring.
  - unfold GetLinkPosition. cbn [pri_step pr_pos pr_rest]. unfold r'. cbn [pri_step]. unfold PUpdate. cbv zeta. cbn [pr_pos pr_cache]. unfold GetZ, GetNode2PositionWRTNode1, GetPosition. cbn [IsNED swap_if]. ring.
Qed.
Example C180_used : slide base_node (sample_node qone (V 0 0 5) origin origin) 5 /\ has_node (sample qone (V 0 0 5) origin origin) 0 (sample_node qone (V 0 0 5) origin origin).
Proof. split; [apply sample_slide|apply (sample_ok qone (V 0 0 5) origin origin unitq_one)]. Qed.

(** Clamp should hold the joint at its present angle: a hinge at -pi/2 is given the target pi/2. *)
Theorem C181_clamp_revolute_refuted : exists b1 m1 b2 m2, has_node b1 0 m1 /\ has_node b2 0 m2 /\ hinge m1 m2 (- (PI / 2)) /\
  let r := rev_run [RStep m1 m2 origin origin; RClamp] new_revolute in GetLinkAngle r = - (PI / 2) /\ rv_motor r = Some (Some (PI / 2)).
Proof.
  destruct base_ok as (B & _). destruct turned_ok as (T & G). eexists _, _, _, _. split; [exact B|]. split; [exact T|]. split; [exact G|]. cbv zeta. cbn [rev_run rev_step].
  set (s := RUpdate new_revolute base_node turned origin origin). unfold GetLinkAngle. cbn [rv_total rv_rest rv_motor]. change (c_21 (rv_cache s)) with (RelM base_node turned). rewrite turned_angle. split; [|reflexivity].
  unfold s. rewrite turned_total. cbn [RUpdate rv_rest new_revolute]. lra.
Qed.

(** The same for a slide: the target is z and the coordinate controlled by the motor is -z. *)
Theorem C182_clamp_prismatic_refuted : forall r b1 i1 m1 b2 i2 m2 rf rt z, has_node b1 i1 m1 -> has_node b2 i2 m2 -> slide m1 m2 z ->
  pr_motor (pri_run [PStep m1 m2 rf rt; PClamp] r) = Some (Some z) /\ linear_motor_coordinate b1 b2 m1 m2 = - z.
Proof. intros r b1 i1 m1 b2 i2 m2 rf rt z H1 H2 G. split; [apply (pri_clamp_target r _ _ _ _ _ _ _ _ _ H1 H2 G)|apply (motor_slide_coordinate _ _ _ _ _ _ _ H1 H2 G)]. Qed.
Example C182_used : exists b1 m1 b2 m2, has_node b1 0 m1 /\ has_node b2 0 m2 /\ slide m1 m2 5.
Proof. eexists _, _, _, _. split; [apply base_ok|]. split; [apply (sample_ok qone (V 0 0 5) origin origin unitq_one)|apply sample_slide]. Qed.

(** The force of the motor asked for in NED is the opposite of the same force converted to NED. *)
Theorem C183_motor_convention_refuted : (forall m x, GetMotorForceInBody1 m (motor_in_node x) NED = vneg (convert NED (GetMotorForceInBody1 m (motor_in_node x) NWU))) /\
  exists b m, has_node b 0 m /\ GetMotorForceInBody1 m (motor_in_node 1) NED <> convert NED (GetMotorForceInBody1 m (motor_in_node 1) NWU).
Proof.
  split; [exact motor_ned|]. destruct base_ok as (B & _). exists base, base_node. split; [exact B|]. rewrite motor_ned. set (F := GetMotorForceInBody1 base_node (motor_in_node 1) NWU). intros E.
  assert (F0 : F = origin). { pose proof (f_equal vx E) as X. pose proof (f_equal vy E) as Y. pose proof (f_equal vz E) as Z. destruct F as [x y z]. cbn [convert vneg vx vy vz] in X, Y, Z. unfold vneg in X, Y, Z. cbn [vx vy vz] in X, Y, Z. apply vec_eq; unfold origin; cbn [vx vy vz]; lra. }
  destruct (node_wrench _ _ _ (motor_in_node 1) origin B) as [A _]. unfold wrench_at_cog, wrench_at_node in A. cbn [w_force] in A. change (force_on_body base_node (motor_in_node 1) NWU) with F in A. rewrite F0 in A.
  assert (O : turn (body_map base) origin = origin) by (unfold turn; generalize (body_map base origin); intros a; v3). rewrite O in A. pose proof (f_equal (fun v => dot3 v v) A) as N. cbn beta in N. rewrite (axes_dot _ _ _ _ _ B) in N. unfold dot3, origin, motor_in_node in N. cbn [vx vy vz] in N. lra.
Qed.

Theorem C184_motor_wrenches : forall b1 i1 m1 b2 i2 m2 x, has_node b1 i1 m1 -> has_node b2 i2 m2 ->
  (forall th, hinge m1 m2 th ->
    let w1 := wrench_at_cog b1 (GetMotorForceInBody1 m1 origin NWU) (GetMotorTorqueAtCOGInBody1 m1 origin (motor_in_node x) NWU) in
    let w2 := wrench_at_cog b2 (GetMotorForceInBody2 m2 origin NWU) (GetMotorTorqueAtCOGInBody2 m2 origin (motor_in_node x) NWU) in
    opposite w1 w2 /\ same_wrench w1 (wrench_at_node m1 origin (V 0 0 x))) /\
  (forall z, slide m1 m2 z ->
    let w1 := wrench_at_cog b1 (GetMotorForceInBody1 m1 (motor_in_node x) NWU) (GetMotorTorqueAtCOGInBody1 m1 (motor_in_node x) origin NWU) in
    let w2 := wrench_at_cog b2 (GetMotorForceInBody2 m2 (motor_in_node x) NWU) (GetMotorTorqueAtCOGInBody2 m2 (motor_in_node x) origin NWU) in
    opposite w1 w2 /\ same_wrench w1 (wrench_at_node m1 (V 0 0 x) origin)).
Proof. intros b1 i1 m1 b2 i2 m2 x H1 H2. split; [intros th G; apply (motor_hinge _ _ _ _ _ _ th x H1 H2 G)|intros z G; apply (motor_slide _ _ _ _ _ _ z x H1 H2 G)]. Qed.
Example C184_used : hinge base_node turned (- (PI / 2)) /\ slide base_node (sample_node qone (V 0 0 5) origin origin) 5.
Proof. split; [apply turned_ok|apply sample_slide]. Qed.

(** Masks: what any history of operations blocks (blocks, in LnkSpec), the counts, and the coordinates blocked in the
    solver; the types of links. *)
Theorem C185_masks : (forall l, Forall (fun o => o <> KType PRISMATICREVOLUTE) l -> let m := mask_run l in
    let s := fold_left (fun s o => blocks o s) l [false; false; false; false; false; false] in
    [k_x m; k_y m; k_z m; k_rx m; k_ry m; k_rz m] = s /\ of_chrono (SetMask m) = s /\
    GetNbLockedDOF m = List.length (filter (fun b => b) s) /\ (GetNbLockedDOF m + GetNbFreeDOF m = 6)%nat /\ (IsFree m = true <-> Forall (fun b => b = false) s)) /\
  (forall t l, blocked_by t = Some l -> of_chrono (chrono_mask t) = l).
Proof.
  split.
  - intros l F m s. pose proof (mask_all l F) as E. fold s in E. fold m in E. destruct (mask_counts m) as (A & B & C). split; [symmetry; exact E|]. split; [rewrite E; apply mask_chrono|]. rewrite E. auto.
  - intros t l E. destruct t; cbn in E; inversion E; reflexivity.
Qed.
Example C185_used : fold_left (fun s o => blocks o s) [KType REVOLUTE; KLockX false; KXZPlane; KLockZ true] [false; false; false; false; false; false] = [false; true; true; true; false; true].
Proof. reflexivity. Qed.

(** A mask of the prismatic-revolute type blocks nothing; the type of a mask is lost when it is set. *)
Theorem C186_mask_type_refuted : blocked_by PRISMATICREVOLUTE = Some [false; true; true; true; true; false] /\
  of_chrono (SetMask (mask_run [KType PRISMATICREVOLUTE])) = [false; false; false; false; false; false] /\
  forall l t, k_type (mask_run (l ++ [KType t])) = CUSTOM.
Proof. split; [reflexivity|]. split; [reflexivity|]. intros l t. unfold mask_run. rewrite fold_left_app. cbn [fold_left mask_step]. destruct t; reflexivity. Qed.

(** Flags of a link after any history *)
Theorem C187_flags : forall l,
  (~ In (FSetBreakable true) l -> fl_broken (flag_run l) = false) /\
  (forall x, fl_breakable (flag_run l) = false -> flag_run (l ++ [FSetBroken x]) = flag_run l) /\
  (forall x, fl_breakable (flag_run l) = true -> fl_broken (flag_run (l ++ [FSetBroken x])) = x /\ (x = true -> link_active (flag_run (l ++ [FSetBroken x])) = false)) /\
  (forall x, fl_disabled (flag_run (l ++ [FSetDisabled x])) = x /\ (x = true -> link_active (flag_run (l ++ [FSetDisabled x])) = false) /\
     (fl_motor (flag_run l) <> None -> fl_motor (flag_run (l ++ [FSetDisabled x])) = Some x)) /\
  (forall o, match o with FSetDisabled _ => False | _ => True end -> fl_disabled (flag_run (l ++ [o])) = fl_disabled (flag_run l)).
Proof.
  intros l. split; [intros N; apply unbreakable, N|]. split; [intros x B; rewrite flag_app; cbn [flag_step]; rewrite B; reflexivity|].
  split; [intros x B; rewrite flag_app; cbn [flag_step]; rewrite B; cbn [fl_broken]; split; [reflexivity|intros ->; unfold link_active; cbn [fl_disabled fl_broken]; apply andb_false_r]|].
  split; [|apply flag_keep]. intros x. rewrite flag_app. cbn [flag_step fl_disabled fl_motor]. split; [reflexivity|]. split; [intros ->; reflexivity|]. destruct (fl_motor (flag_run l)); [reflexivity|congruence].
Qed.
Example C187_used : fl_breakable (flag_run [FSetBreakable true; FMotorize]) = true /\ fl_motor (flag_run [FSetBreakable true; FMotorize]) <> None.
Proof. split; [reflexivity|discriminate]. Qed.

(** The motor of a broken link should stay off, and a link should have one motor at a time: SetDisabled(false) starts
    the motor of a broken link; Motorize leaves the former motor in the system. *)
Theorem C188_motor_state_refuted :
  (let f := flag_run [FSetBreakable true; FMotorize; FSetBroken true; FSetDisabled false] in fl_broken f = true /\ link_active f = false /\ fl_motor f = Some false) /\
  fl_motors (flag_run [FMotorize; FMotorize]) = 2%nat.
Proof. split; [split; [reflexivity|split; reflexivity]|reflexivity]. Qed.

(** Planes and lines: intersection with a line, closest point, distance. *)
Theorem C189_planes : forall b i m a, has_node b i m -> let inside fc X := dot3 (minus3 (convert fc X) (node_place m)) (node_axes m (unit_axis a)) = 0 in
  (forall fc P0 P1 X, GetIntersectionWithLineInWorld m a P0 P1 fc = Ok X -> (exists s, X = plus3 P0 (scal3 s (minus3 P1 P0))) /\ inside fc X) /\
  (forall fc P0 P1, (exists X, GetIntersectionWithLineInWorld m a P0 P1 fc = Ok X) <->
     / 10 ^ 16 < sqrt (dot3 (minus3 P1 P0) (minus3 P1 P0)) /\ dot3 (minus3 (convert fc P1) (convert fc P0)) (node_axes m (unit_axis a)) <> 0) /\
  (forall fc p, exists X, GetClosestPointOnPlaneInWorld m a p fc = Ok X /\ inside fc X /\
     (forall Y, inside fc Y -> dot3 (minus3 p X) (minus3 p X) <= dot3 (minus3 p Y) (minus3 p Y)) /\
     dot3 (minus3 p X) (minus3 p X) = GetDistanceToPointInWorld m a p fc * GetDistanceToPointInWorld m a p fc) /\
  (forall p, GetDistanceToPointInWorld m a p NWU = dot3 (minus3 p (node_place m)) (node_axes m (unit_axis a))).
Proof.
  intros b i m a H inside. split; [intros fc P0 P1 X; apply (intersection_ok _ _ _ _ _ _ _ _ H)|]. split; [|split; [intros fc p; apply (closest_ok _ _ _ _ _ _ H)|]].
  - intros fc P0 P1. rewrite intersection_ok_iff. rewrite (axis_world _ _ _ _ _ H), dot_scal. rewrite <- (convert_invol fc P1) at 2. rewrite <- (convert_invol fc P0) at 2. rewrite <- conv_minus, convert_dot. pose proof (side_sq a fc) as SQ.
    split; intros [L N]; (split; [exact L|]); intros Z; apply N; [rewrite Z; ring|]. apply Rmult_integral in Z. destruct Z as [Z|Z]; [rewrite Z in SQ; lra|exact Z].
  - intros p. rewrite (distance_ok _ _ _ _ _ _ H). destruct a; cbn [side convert]; ring.
Qed.
Example C189_used : exists X, GetClosestPointOnPlaneInWorld base_node ZAXIS (V 1 2 3) NWU = Ok X /\ vz X = 0.
Proof.
  destruct base_ok as (B & BA & _). destruct (C189_planes _ _ _ ZAXIS B) as (_ & _ & C & _). destruct (C NWU (V 1 2 3)) as (X & E & I & _). exists X. split; [exact E|]. unfold node_place, node_axes, turn in I. rewrite !BA in I. cbn [convert unit_axis] in I. unfold dot3, minus3, origin in I. cbn [vx vy vz] in I. lra.
Qed.

(** The signed distance of a point to a plane should not depend on the convention. *)
Theorem C190_signed_distance_refuted : forall b i m p, has_node b i m ->
  GetDistanceToPointInWorld m ZAXIS (convert NED p) NED = - GetDistanceToPointInWorld m ZAXIS p NWU /\ GetDistanceToPointInWorld m YAXIS (convert NED p) NED = - GetDistanceToPointInWorld m YAXIS p NWU /\
  GetDistanceToPointInWorld m XAXIS (convert NED p) NED = GetDistanceToPointInWorld m XAXIS p NWU.
Proof. intros b i m p H. rewrite !(distance_ok _ _ _ _ _ _ H), !convert_invol. cbn [side]. change (convert NWU p) with p. split; [|split]; ring. Qed.
Example C190_used : has_node base 0 base_node /\ GetDistanceToPointInWorld base_node ZAXIS (V 1 2 3) NWU = 3.
Proof.
  destruct base_ok as (B & BA & _). split; [exact B|]. rewrite (distance_ok _ _ _ _ _ _ B). cbn [side convert unit_axis]. unfold node_place, node_axes, turn. rewrite !BA. unfold dot3, minus3, origin. cbn [vx vy vz]. ring.
Qed.

Theorem C191_point_on_line : forall b i m a, has_node b i m -> let f := point_on_line_frame m a in
  parallel (turn (act f) (V 1 0 0)) (node_axes m (unit_axis a)) /\ dot3 (turn (act f) (V 1 0 0)) (turn (act f) (V 1 0 0)) = 1 /\ act f origin = node_place m.
Proof.
  intros b i m a H f. destruct (point_on_line_ok b i m a H) as (A & B & C & U). fold f in A, B, C, U. assert (T : turn (act f) (V 1 0 0) = qrotate (frot f) (V 1 0 0)) by (unfold turn; rewrite !act_eq, qr_origin by exact U; v3).
  rewrite T. split; [exact A|]. split; [exact B|]. rewrite act_eq, qr_origin, C by exact U. v3.
Qed.
Example C191_used : has_node base 0 base_node. Proof. apply base_ok. Qed.

(** Locking degrees of freedom of a body: the body and the world body get one node each, at the centre of gravity and
    with the axes of the body; nothing moves. *)
Theorem C192_locked_dof : forall w b, reachable w -> reachable b -> (forall x, body_map w x = x) -> let '(w', b') := InitializeLockedDOF w b in
  exists mw mb, b_marks w' = b_marks w ++ [mw] /\ b_marks b' = b_marks b ++ [mb] /\
    (forall x, act (NGetFrameInWorld mw) x = plus3 (GetCOGPositionInWorld b NWU) (turn (body_map b) x)) /\
    (forall x, act (NGetFrameInWorld mb) x = plus3 (GetCOGPositionInWorld b NWU) (turn (body_map b) x)) /\
    (forall x, body_map w' x = body_map w x) /\ (forall x, body_map b' x = body_map b x).
Proof. exact locked_ok. Qed.
Example C192_used : reachable newbody /\ (forall x, body_map newbody x = x) /\ reachable (sample (rotz 1) (V 1 2 3) origin origin).
Proof.
  split; [exists []; split; [constructor|reflexivity]|]. split; [|apply (sample_ok (rotz 1) (V 1 2 3) origin origin (rotz_unit 1))]. intros x. rewrite newbody_can, bmap_can. cbn [fident fpos frot]. rewrite qrotate_one. v3.
Qed.
