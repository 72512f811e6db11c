(** Proofs for the links: frames, velocities, wrenches. *)
From Coq Require Import Reals List Bool Lra Psatz Lia.
From Verif Require Import SeaModel GeoModel GeoSpec GeoProofs GeoProofs3 BodyModel BodySpec BodyProofs BodyProofs2 BodyProofs3 MorSpec MorProofs3 LnkModel LnkSpec.
Import ListNotations.
Open Scope R_scope.
Local Notation turn := BodySpec.turn.

Ltac v3 := apply vec_eq; unfold vadd, vsub, vneg, vscale, vcross, vdot, plus3, minus3, scal3, cross3, dot3, origin, vzero; cbn [vx vy vz]; ring.
Lemma p3_vadd a b : vadd a b = plus3 a b. Proof. reflexivity. Qed.
Lemma m3_vsub a b : vsub a b = minus3 a b. Proof. reflexivity. Qed.
Lemma c3_vcross a b : vcross a b = cross3 a b. Proof. reflexivity. Qed.
Lemma neg3 a : vneg a = scal3 (-1) a. Proof. v3. Qed.
Lemma qr_scal q k a : qrotate q (scal3 k a) = scal3 k (qrotate q a).
Proof. destruct q as [a0 a1 a2 a3], a as [x y z]. apply vec_eq; unfold qrotate, scal3; cbn [vx vy vz q0 q1 q2 q3]; ring. Qed.
Lemma qr_origin q : qrotate q origin = origin.
Proof. destruct q as [a0 a1 a2 a3]. apply vec_eq; unfold qrotate, origin; cbn [vx vy vz q0 q1 q2 q3]; ring. Qed.
Lemma conv_origin fc : convert fc origin = origin. Proof. destruct fc; [reflexivity|]. apply vec_eq; unfold convert, origin; cbn [vx vy vz]; ring. Qed.

(** what is known of a node: q the rotation of the body, A and r the frames of the node in the world and from the
    centre of gravity *)
Lemma node_facts b i m : has_node b i m -> exists q, unitq q /\ unitq (frot (NGetFrameInWorld m)) /\ unitq (frot (mk_rel m)) /\
  (forall x, turn (body_map b) x = qrotate q x) /\ (forall x, qrotate q (qrotate (frot (mk_rel m)) x) = qrotate (frot (NGetFrameInWorld m)) x) /\
  plus3 (GetCOGPositionInWorld b NWU) (qrotate q (fpos (mk_rel m))) = fpos (NGetFrameInWorld m) /\
  mf_frame (b_cog b) = Fr (GetCOGPositionInWorld b NWU) q /\ NGetFrameInWorld m = chmul (mf_frame (b_cog b)) (mk_rel m).
Proof.
  intros [RB E]. destruct (reach_can b RB) as (F & v & d & c & Ns & -> & HF & HN). destruct (canon_nth _ _ _ _ _ _ _ E) as (N & EN & ->).
  assert (U : unitf N) by (apply nth_error_In in EN; rewrite Forall_forall in HN; auto).
  exists (frot F). rewrite ngfw_can, cogworld_can. unfold mkn, relf. cbn [mk_rel chmul fpos frot convert].
  split; [exact HF|]. split; [apply unitq_mul; assumption|]. split; [exact U|]. split; [intros; apply turn_can|]. split; [intros; rewrite qrotate_mul; auto|].
  split; [rewrite m3_vsub, qrotate_minus; v3|]. split; [reflexivity|].
  unfold canon, cogm, chmul. cbn [b_cog mf_frame fpos frot]. f_equal. rewrite m3_vsub, qrotate_minus. v3.
Qed.
Lemma axes_rot b i m : has_node b i m -> forall x, node_axes m x = qrotate (frot (NGetFrameInWorld m)) x.
Proof.
  intros H x. destruct (node_facts b i m H) as (q & _ & U & _). unfold node_axes, turn. rewrite !act_eq by exact U. rewrite qr_origin. v3.
Qed.
Lemma place_pos b i m : has_node b i m -> node_place m = fpos (NGetFrameInWorld m).
Proof. intros H. destruct (node_facts b i m H) as (q & _ & U & _). unfold node_place. rewrite act_eq, qr_origin by exact U. v3. Qed.
Lemma pos_place b i m : has_node b i m -> NGetPositionInWorld m NWU = node_place m.
Proof. intros H. rewrite (place_pos b i m H). reflexivity. Qed.

(** ** Frames *)
Lemma rel_unit b1 i1 m1 b2 i2 m2 : has_node b1 i1 m1 -> has_node b2 i2 m2 -> unitq (frot (RelM m1 m2)) /\ unitq (frot (chinv (RelM m1 m2))).
Proof.
  intros H1 H2. destruct (node_facts _ _ _ H1) as (qa & _ & U1 & _). destruct (node_facts _ _ _ H2) as (qb & _ & U2 & _).
  unfold RelM. unfold NGetFrameInWorld in U1, U2. cbn [chmul chinv frot]. split; [|apply unitq_conj]; apply unitq_mul; auto using unitq_conj.
Qed.
Lemma rel_act b1 i1 m1 b2 i2 m2 x : has_node b1 i1 m1 -> has_node b2 i2 m2 -> act (NGetFrameInWorld m1) (act (RelM m1 m2) x) = act (NGetFrameInWorld m2) x.
Proof.
  intros H1 H2. destruct (rel_unit _ _ _ _ _ _ H1 H2) as [UR _]. destruct (node_facts _ _ _ H1) as (qa & _ & U1 & _). destruct (node_facts _ _ _ H2) as (qb & _ & U2 & _).
  rewrite !act_eq by assumption. unfold RelM, NGetFrameInWorld in *. cbn [chmul chinv fpos frot]. set (A := mf_frame (mk_abs m1)) in *. set (B := mf_frame (mk_abs m2)) in *. clearbody A B.
  rewrite qrotate_mul by auto using unitq_conj. rewrite !qrotate_plus3, ?p3_vadd, ?qrotate_plus3. rewrite neg3, !qr_scal. rewrite !qrotate_conj_r by exact U1. v3.
Qed.
Lemma inv_act f x : unitq (frot f) -> act f (act (chinv f) x) = x /\ act (chinv f) (act f x) = x.
Proof.
  intros U. rewrite !act_eq by (try exact U; apply unitq_conj; exact U). cbn [chinv fpos frot]. rewrite neg3. rewrite !qrotate_plus3, !qr_scal, qrotate_conj_r, qrotate_conj_l by exact U. rewrite qrotate_conj_r by exact U. split; v3.
Qed.
Lemma frames_ok b1 i1 m1 b2 i2 m2 rf rt : has_node b1 i1 m1 -> has_node b2 i2 m2 -> let c := GenerateCache m1 m2 rf rt in
  (forall x, act (NGetFrameInWorld m1) (act (c_21 c) x) = act (NGetFrameInWorld m2) x) /\
  (forall x, act (NGetFrameInWorld m2) (act (c_12 c) x) = act (NGetFrameInWorld m1) x) /\
  (forall fc, act (NGetFrameInWorld m1) (convert fc (GetNode2PositionWRTNode1 c fc)) = node_place m2) /\
  (forall fc, act (NGetFrameInWorld m2) (convert fc (GetNode1PositionWRTNode2 c fc)) = node_place m1).
Proof.
  intros H1 H2 c. destruct (rel_unit _ _ _ _ _ _ H1 H2) as [UR UI].
  assert (A1 : forall x, act (NGetFrameInWorld m1) (act (c_21 c) x) = act (NGetFrameInWorld m2) x) by (intros; apply (rel_act _ _ _ _ _ _ x H1 H2)).
  assert (A2 : forall x, act (NGetFrameInWorld m2) (act (c_12 c) x) = act (NGetFrameInWorld m1) x).
  { intros x. rewrite <- A1. f_equal. apply inv_act. exact UR. }
  split; [exact A1|]. split; [exact A2|]. unfold GetNode2PositionWRTNode1, GetNode1PositionWRTNode2, GetPosition, node_place. split; intros fc; rewrite swap_convert, convert_invol.
  - rewrite <- A1. f_equal. cbn [c GenerateCache c_21]. rewrite act_eq by exact UR. rewrite qr_origin. v3.
  - rewrite <- A2. f_equal. cbn [c GenerateCache c_12]. change (Frame_Inverse (RelM m1 m2)) with (chinv (RelM m1 m2)). rewrite act_eq by exact UI. rewrite qr_origin. v3.
Qed.

(** ** Velocities *)
Lemma rel_rot b1 i1 m1 b2 i2 m2 : has_node b1 i1 m1 -> has_node b2 i2 m2 ->
  (forall x, qrotate (frot (NGetFrameInWorld m1)) (qrotate (frot (RelM m1 m2)) x) = qrotate (frot (NGetFrameInWorld m2)) x) /\
  (forall x, qrotate (frot (NGetFrameInWorld m2)) (qrotate (frot (chinv (RelM m1 m2))) x) = qrotate (frot (NGetFrameInWorld m1)) x).
Proof.
  intros H1 H2. destruct (node_facts _ _ _ H1) as (qa & _ & U1 & _). destruct (node_facts _ _ _ H2) as (qb & _ & U2 & _). unfold RelM, NGetFrameInWorld in *. cbn [chmul chinv frot].
  split; intros x.
  - rewrite qrotate_mul by auto using unitq_conj. apply qrotate_conj_r. exact U1.
  - assert (E : qconj (qmul (qconj (frot (mf_frame (mk_abs m1)))) (frot (mf_frame (mk_abs m2)))) = qmul (qconj (frot (mf_frame (mk_abs m2)))) (frot (mf_frame (mk_abs m1)))).
    { destruct (frot (mf_frame (mk_abs m1))) as [a0 a1 a2 a3], (frot (mf_frame (mk_abs m2))) as [e0 e1 e2 e3]. unfold qconj, qmul. cbn [q0 q1 q2 q3]. f_equal; ring. }
    rewrite E, qrotate_mul by auto using unitq_conj. apply qrotate_conj_r. exact U2.
Qed.
Lemma pvfp f v : ProjectVectorFrameInParent f v NWU = qrotate (frot f) v.
Proof. unfold ProjectVectorFrameInParent. rewrite UQ_Rotate_convert. reflexivity. Qed.
Lemma velocities b1 i1 m1 b2 i2 m2 rf rt P1 u1 w1 P2 u2 w2 : has_node b1 i1 m1 -> has_node b2 i2 m2 -> velocity_reads_everywhere b1 P1 u1 w1 -> velocity_reads_everywhere b2 P2 u2 w2 ->
  let c := GenerateCache m1 m2 rf rt in let U1 := rigid_velocity P1 u1 w1 in let U2 := rigid_velocity P2 u2 w2 in
  node_axes m1 (GetVelocityOfNode2WRTNode1 c NWU) = minus3 (U2 (node_place m2)) (U1 (node_place m2)) /\
  node_axes m1 (GetAngularVelocityOfNode2WRTNode1 c NWU) = minus3 w2 w1 /\
  node_axes m2 (GetAngularVelocityOfNode1WRTNode2 c NWU) = minus3 w1 w2 /\
  node_axes m2 (GetVelocityOfNode1WRTNode2 c NWU) = minus3 (U1 (node_place m2)) (U2 (node_place m2)).
Proof.
  intros H1 H2 V1 V2 c U1 U2. destruct V1 as (_ & _ & N1). destruct V2 as (_ & _ & N2). destruct (N1 _ _ (proj2 H1)) as [A1 B1]. destruct (N2 _ _ (proj2 H2)) as [A2 B2].
  specialize (A1 NWU). specialize (B1 NWU). specialize (A2 NWU). specialize (B2 NWU). rewrite (pos_place _ _ _ H1) in A1. rewrite (pos_place _ _ _ H2) in A2.
  unfold NGetVelocityInWorld, NGetAngularVelocityInWorld in *. rewrite swap_convert in *. cbn [convert] in *.
  destruct (node_facts _ _ _ H1) as (qa & _ & UU1 & _). destruct (rel_rot _ _ _ _ _ _ H1 H2) as [_ RR].
  assert (E1 : node_axes m1 (c_v21 c) = minus3 (U2 (node_place m2)) (U1 (node_place m2))).
  { rewrite (axes_rot _ _ _ H1). cbn [c GenerateCache c_v21]. unfold RelM_dt_pos. cbv zeta. unfold NGetFrameInWorld in UU1 |- *. rewrite qrotate_conj_r by exact UU1. rewrite A1, A2, B1. change (fpos (mf_frame (mk_abs m1))) with (fpos (NGetFrameInWorld m1)). change (fpos (mf_frame (mk_abs m2))) with (fpos (NGetFrameInWorld m2)).
    rewrite <- (place_pos _ _ _ H1), <- (place_pos _ _ _ H2). unfold U1, U2, rigid_velocity. generalize (node_place m1) (node_place m2). intros a b. v3. }
  assert (E2 : node_axes m1 (c_w21 c) = minus3 w2 w1).
  { rewrite (axes_rot _ _ _ H1). cbn [c GenerateCache c_w21]. unfold RelWvel. unfold NGetFrameInWorld in UU1 |- *. rewrite qrotate_conj_r by exact UU1. rewrite B1, B2. reflexivity. }
  split; [exact E1|]. split; [exact E2|].
  assert (BACK : forall y, node_axes m2 (vneg (ProjectVectorFrameInParent (c_12 c) y NWU)) = scal3 (-1) (node_axes m1 y)).
  { intros y. rewrite (axes_rot _ _ _ H2), (axes_rot _ _ _ H1), pvfp, neg3, qr_scal. f_equal. cbn [c GenerateCache c_12]. apply RR. }
  unfold GetAngularVelocityOfNode1WRTNode2, GetVelocityOfNode1WRTNode2. split.
  - change (c_w12 c) with (vneg (ProjectVectorFrameInParent (c_12 c) (c_w21 c) NWU)). rewrite BACK, E2. v3.
  - change (c_v12 c) with (vneg (ProjectVectorFrameInParent (c_12 c) (c_v21 c) NWU)). rewrite BACK, E1. generalize (U1 (node_place m2)) (U2 (node_place m2)). intros a b. v3.
Qed.

(** ** Wrenches *)
Lemma force_body b i m f fc : has_node b i m -> force_on_body m f fc = convert fc (qrotate (frot (mk_rel m)) (convert fc f)).
Proof. intros _. unfold force_on_body, ProjectVectorFrameInParent. rewrite UQ_Rotate_convert. reflexivity. Qed.
Lemma torque_body m f t fc : torque_on_body m f t fc =
  convert fc (plus3 (qrotate (frot (mk_rel m)) (convert fc t)) (cross3 (fpos (mk_rel m)) (qrotate (frot (mk_rel m)) (convert fc f)))).
Proof.
  unfold torque_on_body, ProjectVectorFrameInParent, GetPosition. cbv zeta. rewrite !UQ_Rotate_convert, swap_convert. rewrite p3_vadd, c3_vcross, convert_cross, convert_plus. reflexivity.
Qed.
Lemma node_wrench b i m f t : has_node b i m -> same_wrench (wrench_at_cog b (force_on_body m f NWU) (torque_on_body m f t NWU)) (wrench_at_node m f t).
Proof.
  intros H. destruct (node_facts b i m H) as (q & Uq & UA & Ur & T1 & T2 & T3 & _). unfold same_wrench, wrench_at_cog, wrench_at_node, moment_of. cbn [w_force w_moment w_point].
  rewrite (force_body b i m _ _ H), torque_body. cbn [convert]. rewrite !T1, !(axes_rot b i m H), (place_pos b i m H), qrotate_plus3, <- qrotate_cross, !T2, <- T3 by exact Uq. split; [reflexivity|].
  intros P. generalize (qrotate (frot (NGetFrameInWorld m)) t) (qrotate (frot (NGetFrameInWorld m)) f) (qrotate q (fpos (mk_rel m))) (GetCOGPositionInWorld b NWU). intros a b0 c0 d0. v3.
Qed.
Lemma conv_body m f t fc : force_on_body m (convert fc f) fc = convert fc (force_on_body m f NWU) /\ torque_on_body m (convert fc f) (convert fc t) fc = convert fc (torque_on_body m f t NWU).
Proof. unfold force_on_body at 1 2. unfold ProjectVectorFrameInParent. rewrite !UQ_Rotate_convert, !torque_body, !convert_invol. split; reflexivity. Qed.
Lemma opposite_nodes m1 m2 f1 t1 f2 t2 b1 i1 b2 i2 : has_node b1 i1 m1 -> has_node b2 i2 m2 -> opposite (wrench_at_node m1 f1 t1) (wrench_at_node m2 f2 t2) ->
  opposite (wrench_at_cog b1 (force_on_body m1 f1 NWU) (torque_on_body m1 f1 t1 NWU)) (wrench_at_cog b2 (force_on_body m2 f2 NWU) (torque_on_body m2 f2 t2 NWU)).
Proof.
  intros H1 H2 [O1 O2]. destruct (node_wrench b1 i1 m1 f1 t1 H1) as [A1 A2]. destruct (node_wrench b2 i2 m2 f2 t2 H2) as [B1 B2]. split; [rewrite A1, B1; exact O1|]. intros P. rewrite A2, B2. apply O2.
Qed.
Lemma reaction b1 i1 m1 b2 i2 m2 rf rt : has_node b1 i1 m1 -> has_node b2 i2 m2 -> let c := GenerateCache m1 m2 rf rt in
  opposite (wrench_at_node m1 (GetLinkReactionForceOnNode1 c NWU) (GetLinkReactionTorqueOnNode1 c NWU)) (wrench_at_node m2 (GetLinkReactionForceOnNode2 c NWU) (GetLinkReactionTorqueOnNode2 c NWU)).
Proof.
  intros H1 H2 c. destruct (rel_rot _ _ _ _ _ _ H1 H2) as [_ RR]. destruct (rel_unit _ _ _ _ _ _ H1 H2) as [UR UI].
  destruct (node_facts _ _ _ H2) as (qb & _ & U2 & _). assert (U2' := U2).
  destruct (frames_ok _ _ _ _ _ _ rf rt H1 H2) as (_ & _ & _ & PL). specialize (PL NWU). fold c in PL. cbn [convert] in PL. rewrite act_eq in PL by exact U2.
  assert (BACK : forall y, node_axes m2 (vneg (ProjectVectorFrameInParent (c_12 c) y NWU)) = scal3 (-1) (node_axes m1 y)).
  { intros y. rewrite (axes_rot _ _ _ H2), (axes_rot _ _ _ H1), pvfp, neg3, qr_scal. f_equal. cbn [c GenerateCache c_12]. apply RR. }
  assert (F2 : node_axes m2 (c_f2 c) = scal3 (-1) (node_axes m1 rf)) by apply BACK.
  assert (T2 : node_axes m2 (c_t2 c) = plus3 (scal3 (-1) (node_axes m1 rt)) (cross3 (minus3 (node_place m1) (node_place m2)) (scal3 (-1) (node_axes m1 rf)))).
  { rewrite <- F2, <- BACK, <- PL, (place_pos _ _ _ H2), !(axes_rot _ _ _ H2). unfold GetNode1PositionWRTNode2.
    replace (minus3 (plus3 (fpos (NGetFrameInWorld m2)) (qrotate (frot (NGetFrameInWorld m2)) (GetPosition (c_12 c) NWU))) (fpos (NGetFrameInWorld m2))) with (qrotate (frot (NGetFrameInWorld m2)) (GetPosition (c_12 c) NWU)) by (generalize (qrotate (frot (NGetFrameInWorld m2)) (GetPosition (c_12 c) NWU)) (fpos (NGetFrameInWorld m2)); intros a b; v3).
    rewrite qrotate_cross, <- qrotate_plus3 by exact U2. reflexivity. }
  unfold GetLinkReactionForceOnNode1, GetLinkReactionTorqueOnNode1, GetLinkReactionForceOnNode2, GetLinkReactionTorqueOnNode2. rewrite !swap_convert. cbn [convert]. change (c_f1 c) with rf. change (c_t1 c) with rt.
  unfold opposite, wrench_at_node, moment_of. cbn [w_force w_moment w_point]. rewrite F2, T2. generalize (node_axes m1 rf) (node_axes m1 rt) (node_place m1) (node_place m2). intros a b c0 d. split; [v3|]. intros P. v3.
Qed.
