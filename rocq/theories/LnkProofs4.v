(** Proofs for the links: motors, masks, flags, planes, locked degrees of freedom, samples. *)
From Coq Require Import Reals List Bool Lra Psatz Lia ZArith.
From Verif Require Import SeaModel GeoModel GeoSpec GeoProofs GeoProofs3 BodyModel BodySpec BodyProofs BodyProofs2 BodyProofs3 WavProofs3 MorSpec LnkModel LnkSpec LnkProofs LnkProofs2 LnkProofs3.
Import ListNotations.
Open Scope R_scope.
Local Notation turn := BodySpec.turn.

(** ** Motors *)
Lemma opposite_neg w1 F2 T2 b2 : opposite w1 (wrench_at_cog b2 F2 T2) -> reachable b2 ->
  same_wrench w1 (wrench_at_cog b2 (vneg F2) (vneg T2)).
Proof.
  intros [A B] RB. destruct (reach_can b2 RB) as (F & v & d & c & Ns & E & _). 
  assert (N : forall x, turn (body_map b2) (vneg x) = scal3 (-1) (turn (body_map b2) x)) by (intros x; rewrite E, !turn_can, neg3; apply qr_scal).
  unfold same_wrench, wrench_at_cog, moment_of in *. cbn [w_force w_moment w_point] in *. rewrite !N. clear E N.
  set (f2 := turn (body_map b2) F2) in *. set (t2 := turn (body_map b2) T2) in *. set (g := GetCOGPositionInWorld b2 NWU) in *. clearbody f2 t2 g. destruct w1 as [f1 t1 p1]. cbn [w_force w_moment w_point] in *.
  assert (F1 : f1 = scal3 (-1) f2). { destruct f1 as [a1 a2 a3], f2 as [c1 c2 c3]. pose proof (f_equal vx A). pose proof (f_equal vy A). pose proof (f_equal vz A). unfold plus3, origin in *. cbn [vx vy vz] in *. apply vec_eq; unfold scal3; cbn [vx vy vz]; lra. }
  split; [exact F1|]. intros P. specialize (B P). revert B. rewrite F1. generalize (cross3 (minus3 p1 P) (scal3 (-1) f2)). intros k B. destruct k as [k1 k2 k3], t1 as [a1 a2 a3], t2 as [c1 c2 c3], f2 as [f21 f22 f23], g as [g1 g2 g3], P as [x y z].
  pose proof (f_equal vx B). pose proof (f_equal vy B). pose proof (f_equal vz B). unfold plus3, cross3, minus3, scal3, origin in *. cbn [vx vy vz] in *. apply vec_eq; cbn [vx vy vz]; lra.
Qed.
Lemma wrench_neg b F T : reachable b -> forall P, w_force (wrench_at_cog b (vneg F) (vneg T)) = scal3 (-1) (w_force (wrench_at_cog b F T)) /\ moment_of (wrench_at_cog b (vneg F) (vneg T)) P = scal3 (-1) (moment_of (wrench_at_cog b F T) P).
Proof.
  intros RB P. destruct (reach_can b RB) as (Fb & v & d & c & Ns & E & _). 
  assert (N : forall x, turn (body_map b) (vneg x) = scal3 (-1) (turn (body_map b) x)) by (intros x; rewrite E, !turn_can, neg3; apply qr_scal).
  unfold wrench_at_cog, moment_of. cbn [w_force w_moment w_point]. rewrite !N. split; [reflexivity|]. generalize (turn (body_map b) F) (turn (body_map b) T) (GetCOGPositionInWorld b NWU). intros a e g. v3.
Qed.
(** opposite of equal wrenches *)
Lemma same_opposite w1 b F T : reachable b -> same_wrench w1 (wrench_at_cog b F T) -> opposite w1 (wrench_at_cog b (vneg F) (vneg T)).
Proof.
  intros RB [A B]. split; [rewrite (proj1 (wrench_neg b F T RB origin)), A; v3|]. intros P. rewrite (proj2 (wrench_neg b F T RB P)), B. v3.
Qed.
Lemma same_sym w1 w2 : same_wrench w1 w2 -> same_wrench w2 w1. Proof. intros [A B]. split; [auto|]. intros P. symmetry. apply B. Qed.
Lemma same_trans w1 w2 w3 : same_wrench w1 w2 -> same_wrench w2 w3 -> same_wrench w1 w3. Proof. intros [A B] [C E]. split; [congruence|]. intros P. rewrite B. apply E. Qed.
Lemma motor_hinge b1 i1 m1 b2 i2 m2 th x : has_node b1 i1 m1 -> has_node b2 i2 m2 -> hinge m1 m2 th ->
  let w1 := wrench_at_cog b1 (GetMotorForceInBody1 m1 origin NWU) (GetMotorTorqueAtCOGInBody1 m1 origin (motor_in_node x) NWU) in
  let w2 := wrench_at_cog b2 (GetMotorForceInBody2 m2 origin NWU) (GetMotorTorqueAtCOGInBody2 m2 origin (motor_in_node x) NWU) in
  opposite w1 w2 /\ same_wrench w1 (wrench_at_node m1 origin (V 0 0 x)).
Proof.
  intros H1 H2 G w1 w2. assert (S1 : same_wrench w1 (wrench_at_node m1 origin (V 0 0 x))) by (apply (node_wrench _ _ _ _ _ H1)).
  split; [|exact S1]. apply same_opposite; [apply H2|]. apply (same_trans _ _ _ S1). apply same_sym. apply (same_trans _ (wrench_at_node m2 origin (V 0 0 x))); [apply (node_wrench _ _ _ _ _ H2)|].
  unfold wrench_at_node, same_wrench, moment_of. cbn [w_force w_moment w_point]. rewrite (hinge_axis _ _ _ _ G), (hinge_place _ _ _ G), (axes_0 _ _ _ H1), (axes_0 _ _ _ H2). split; reflexivity.
Qed.
Lemma motor_slide b1 i1 m1 b2 i2 m2 z x : has_node b1 i1 m1 -> has_node b2 i2 m2 -> slide m1 m2 z ->
  let w1 := wrench_at_cog b1 (GetMotorForceInBody1 m1 (motor_in_node x) NWU) (GetMotorTorqueAtCOGInBody1 m1 (motor_in_node x) origin NWU) in
  let w2 := wrench_at_cog b2 (GetMotorForceInBody2 m2 (motor_in_node x) NWU) (GetMotorTorqueAtCOGInBody2 m2 (motor_in_node x) origin NWU) in
  opposite w1 w2 /\ same_wrench w1 (wrench_at_node m1 (V 0 0 x) origin).
Proof.
  intros H1 H2 G w1 w2. assert (S1 : same_wrench w1 (wrench_at_node m1 (V 0 0 x) origin)) by (apply (node_wrench _ _ _ _ _ H1)).
  split; [|exact S1]. apply same_opposite; [apply H2|]. apply (same_trans _ _ _ S1). apply same_sym. apply (same_trans _ (wrench_at_node m2 (V 0 0 x) origin)); [apply (node_wrench _ _ _ _ _ H2)|].
  unfold wrench_at_node, same_wrench, moment_of. cbn [w_force w_moment w_point]. rewrite !(slide_axes _ _ _ _ _ _ H1 G), (slide_place _ _ _ _ _ H1 G), !(axes_0 _ _ _ H1). split; [reflexivity|]. intros P.
  replace (V 0 0 z) with (scal3 z (V 0 0 1)) by v3. replace (V 0 0 x) with (scal3 x (V 0 0 1)) by v3. rewrite !(axes_scal _ _ _ _ _ H1). generalize (node_axes m1 (V 0 0 1)) (node_place m1). intros a b. v3.
Qed.
Lemma motor_ned m x : GetMotorForceInBody1 m (motor_in_node x) NED = vneg (convert NED (GetMotorForceInBody1 m (motor_in_node x) NWU)).
Proof.
  unfold GetMotorForceInBody1, force_on_body, ProjectVectorFrameInParent. rewrite !UQ_Rotate_convert. cbn [convert]. unfold motor_in_node. cbn [vx vy vz].
  replace (V 0 (- 0) (- x)) with (scal3 (-1) (V 0 0 x)) by v3. rewrite qr_scal. generalize (qrotate (frot (NGetFrameWRT_COG m)) (V 0 0 x)). intros a. v3.
Qed.
(** the coordinate of the linear motor *)
Lemma motor_coordinate b1 i1 m1 b2 i2 m2 : has_node b1 i1 m1 -> has_node b2 i2 m2 ->
  linear_motor_coordinate b1 b2 m1 m2 = - dot3 (minus3 (node_place m2) (node_place m1)) (node_axes m1 (V 0 0 1)).
Proof.
  intros H1 H2. destruct (node_facts _ _ _ H1) as (q & Uq & UA & Ur & T1 & T2 & T3 & C1 & N1). destruct (node_facts _ _ _ H2) as (p & Up & UB & Us & S1 & S2 & S3 & C2 & N2).
  unfold linear_motor_coordinate. rewrite C1, C2. unfold linear_motor_frame, RotY_RADIANS. cbn [IsNED]. unfold NGetFrameWRT_COG, Frame_make. rewrite !swap_convert. cbn [convert chmul chinv fpos frot]. change vadd with plus3. rewrite T3, S3. rewrite <- (place_pos _ _ _ H1), <- (place_pos _ _ _ H2).
  rewrite qyaxis_rot. set (k := qmul (Q_from_AngAxis (PI / 2) (qrotate (frot (mk_rel m1)) (V 0 1 0))) (frot (mk_rel m1))).
  assert (UY : unit3 (V 0 1 0)) by (unfold unit3, dot3; cbn [vx vy vz]; ring).
  assert (Uk : unitq k) by (unfold k; apply unitq_mul; [apply unitq_angaxis, unit3_rot; assumption|assumption]).
  assert (K : qrotate q (qrotate k (V 1 0 0)) = node_axes m1 (V 0 0 (-1))). { unfold k. rewrite local_axis by assumption. rewrite T2, (axes_rot _ _ _ H1). f_equal. unfold rodrigues. rewrite cos_PI2, sin_PI2. apply vec_eq; unfold plus3, scal3, cross3, dot3; cbn [vx vy vz]; ring. }
  clearbody k. assert (U : unitq (qmul q k)) by (apply unitq_mul; assumption). rewrite neg3.
  replace (plus3 (scal3 (-1) (qrotate (qconj (qmul q k)) (node_place m1))) (qrotate (qconj (qmul q k)) (node_place m2))) with (qrotate (qconj (qmul q k)) (minus3 (node_place m2) (node_place m1))) by (rewrite qrotate_minus; v3).
  set (y := minus3 (node_place m2) (node_place m1)).
  assert (D : vx (qrotate (qconj (qmul q k)) y) = dot3 (qrotate (qmul q k) (V 1 0 0)) y).
  { rewrite <- (qrotate_conj_r (qmul q k) y U) at 2. rewrite qrotate_dot by exact U. unfold dot3. cbn [vx vy vz]. ring. }
  rewrite D, qrotate_mul, K by assumption. replace (V 0 0 (-1)) with (scal3 (-1) (V 0 0 1)) by v3. rewrite (axes_scal _ _ _ _ _ H1). unfold dot3, scal3. cbn [vx vy vz]. ring.
Qed.
Lemma motor_slide_coordinate b1 i1 m1 b2 i2 m2 z : has_node b1 i1 m1 -> has_node b2 i2 m2 -> slide m1 m2 z -> linear_motor_coordinate b1 b2 m1 m2 = - z.
Proof.
  intros H1 H2 G. rewrite (motor_coordinate _ _ _ _ _ _ H1 H2), (slide_place _ _ _ _ _ H1 G). f_equal. replace (V 0 0 z) with (scal3 z (V 0 0 1)) by v3. rewrite (axes_scal _ _ _ _ _ H1).
  replace (minus3 (plus3 (node_place m1) (scal3 z (node_axes m1 (V 0 0 1)))) (node_place m1)) with (scal3 z (node_axes m1 (V 0 0 1))) by (generalize (node_axes m1 (V 0 0 1)) (node_place m1); intros; v3).
  rewrite <- (axes_scal _ _ _ _ _ H1), (axes_dot _ _ _ _ _ H1). unfold dot3, scal3. cbn [vx vy vz]. ring.
Qed.
Lemma pri_clamp_target r b1 i1 m1 b2 i2 m2 z rf rt : has_node b1 i1 m1 -> has_node b2 i2 m2 -> slide m1 m2 z -> pr_motor (pri_run [PStep m1 m2 rf rt; PClamp] r) = Some (Some z).
Proof.
  intros H1 H2 G. cbn [pri_run pri_step pr_motor]. unfold PUpdate. cbv zeta. cbn [pr_cache]. do 2 f_equal. destruct (frames_ok _ _ _ _ _ _ rf rt H1 H2) as (_ & _ & A & _). specialize (A NWU). cbn [convert] in A.
  assert (P21 : GetNode2PositionWRTNode1 (GenerateCache m1 m2 rf rt) NWU = V 0 0 z). { apply (rel_inj _ _ _ _ _ H1). rewrite A. unfold node_place. rewrite G. f_equal. v3. } rewrite P21. reflexivity.
Qed.

(** ** Masks *)
Definition dofs (m : dof_mask) : list bool := [k_x m; k_y m; k_z m; k_rx m; k_ry m; k_rz m].
Lemma mask_one o m s : s = dofs m -> o <> KType PRISMATICREVOLUTE -> blocks o s = dofs (mask_step o m).
Proof. intros -> N. destruct m as [t x y z rx ry rz]. destruct o as [l|l|l|l|l|l| | | | |t']; try reflexivity. destruct t'; try reflexivity. congruence. Qed.
Lemma mask_all l : Forall (fun o => o <> KType PRISMATICREVOLUTE) l -> fold_left (fun s o => blocks o s) l [false; false; false; false; false; false] = dofs (mask_run l).
Proof.
  unfold mask_run. assert (H : forall l m s, Forall (fun o => o <> KType PRISMATICREVOLUTE) l -> s = dofs m -> fold_left (fun s o => blocks o s) l s = dofs (fold_left (fun m o => mask_step o m) l m)).
  { clear. induction l as [|o l IH]; intros m s F E; [exact E|]. inversion F; subst. cbn [fold_left]. apply IH; [assumption|]. apply mask_one; auto. }
  intros F. apply (H l new_mask); [exact F|reflexivity].
Qed.
Lemma mask_type l : let m := mask_run l in k_type m = CUSTOM \/ (k_type m = FREE_LINK /\ dofs m = [false; false; false; false; false; false]) \/ (k_type m = FIXED_LINK /\ dofs m = [true; true; true; true; true; true]).
Proof.
  cbv zeta. assert (H : forall m o, let m' := mask_step o m in k_type m' = CUSTOM \/ (k_type m' = FREE_LINK /\ dofs m' = [false; false; false; false; false; false]) \/ (k_type m' = FIXED_LINK /\ dofs m' = [true; true; true; true; true; true])).
  { intros m o. destruct o as [x|x|x|x|x|x| | | | |t]; cbn; auto. destruct t; cbn; auto. }
  unfold mask_run. destruct l as [|o l] using rev_ind; [right; left; split; reflexivity|]. rewrite fold_left_app. cbn [fold_left]. apply H.
Qed.
Lemma mask_chrono l : of_chrono (SetMask (mask_run l)) = dofs (mask_run l).
Proof.
  destruct (mask_type l) as [E|[[E E2]|[E E2]]]; unfold SetMask; rewrite E; [reflexivity| |]; rewrite E2; reflexivity.
Qed.
Lemma mask_counts m : (GetNbLockedDOF m + GetNbFreeDOF m = 6)%nat /\ GetNbLockedDOF m = List.length (filter (fun b => b) (dofs m)) /\ (IsFree m = true <-> Forall (fun b => b = false) (dofs m)).
Proof.
  destruct m as [t x y z rx ry rz]. unfold GetNbFreeDOF, dofs, IsFree, HasLockedDOF, GetNbLockedDOF. cbn [k_x k_y k_z k_rx k_ry k_rz].
  split; [destruct x, y, z, rx, ry, rz; reflexivity|]. split; [destruct x, y, z, rx, ry, rz; reflexivity|]. split.
  - destruct x, y, z, rx, ry, rz; try discriminate. intros _. repeat constructor.
  - intros F. repeat match goal with X : Forall _ (_ :: _) |- _ => inversion X; clear X; subst end. reflexivity.
Qed.
