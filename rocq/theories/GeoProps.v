(** Theorems C11-C16 (geometry).  Vocabulary: GeoSpec.  Model: GeoModel. *)
From Coq Require Import Reals List Lra.
From Verif Require Import GeoModel GeoSpec GeoProofs GeoProofs2 GeoProofs3 GeoProofs4.
Open Scope R_scope.

(** * C11 *)
Theorem C11_swap_is_isometric_involution : forall a b,
  SwapFrameConvention (SwapFrameConvention a) = a /\
  dot3 (SwapFrameConvention a) (SwapFrameConvention b) = dot3 a b /\
  cross3 (SwapFrameConvention a) (SwapFrameConvention b) = SwapFrameConvention (cross3 a b) /\
  dist3 (SwapFrameConvention a) (SwapFrameConvention b) = dist3 a b.
Proof. exact swap_isometry. Qed.
(** Setting in convention fs and reading in convention fg. *)
Theorem C11_frame_position : forall f p fs fg,
  GetPosition (SetPosition f p fs) fg = convert fg (convert fs p) /\
  GetPosition (Frame_make p (frot f) fs) fg = convert fg (convert fs p) /\
  V (GetX (SetPosition f p fs) fg) (GetY (SetPosition f p fs) fg) (GetZ (SetPosition f p fs) fg) = convert fg (convert fs p) /\
  GetPosition (SetZ (SetY (SetX f (vx p) fs) (vy p) fs) (vz p) fs) fg = convert fg (convert fs p).
Proof. exact frame_position. Qed.
Theorem C11_same_convention_reads_back : forall fc p, convert fc (convert fc p) = p.
Proof. exact convert_invol. Qed.
Theorem C11_quaternion_elements : forall a b c d fc, UQ_GetElts (UQ_SetElts a b c d false fc) fc = Q a b c d.
Proof. exact quat_elts. Qed.
Theorem C11_torsor_point : forall r m p fs fg, Torsor_GetPoint (Torsor_Set r m p fs) fg = convert fg (convert fs p).
Proof. exact torsor_point. Qed.
Theorem C11_rotation_axes : forall tol x y z fc, 0 <= tol ->
  rotation_matrix (M (vx x) (vx y) (vx z) (vy x) (vy y) (vy z) (vz x) (vz y) (vz z)) ->
  exists q, Rot_SetAxes tol x y z fc = Some q /\
    UQ_GetXAxis q fc = x /\ UQ_GetYAxis q fc = y /\ UQ_GetZAxis q fc = z.
Proof.
  intros tol x y z fc Ht H. destruct (rot_axes_assert tol x y z fc Ht H) as [q E].
  exists q. split; auto. eapply rot_axes; eauto.
Qed.
Theorem C98_frame_axes_nwu_partial : forall f p e1 e2 e3,
  rotation_matrix (M (vx e1) (vx e2) (vx e3) (vy e1) (vy e2) (vy e3) (vz e1) (vz e2) (vz e3)) ->
  let g := Frame_SetAxes f p e1 e2 e3 NWU in
  UQ_GetXAxis (frot g) NWU = e1 /\ UQ_GetYAxis (frot g) NWU = e2 /\ UQ_GetZAxis (frot g) NWU = e3 /\ GetPosition g NWU = p.
Proof. exact frame_set_axes_nwu. Qed.
(** FrFrame::Set(pos, e1, e2, e3, NED) ignores the convention of the axes. *)
Theorem C98_frame_axes_ned_refuted : exists e1 e2 e3,
  rotation_matrix (M (vx e1) (vx e2) (vx e3) (vy e1) (vy e2) (vy e3) (vz e1) (vz e2) (vz e3)) /\
  UQ_GetXAxis (frot (Frame_SetAxes fident origin e1 e2 e3 NED)) NED <> e1.
Proof. exact frame_set_axes_bad. Qed.
Example C11_axes_example : rotation_matrix (M 0 (-1) 0 1 0 0 0 0 1).
Proof. unfold rotation_matrix; geo; split; [|split]; [meq; ring | meq; ring | ring]. Qed.

(** * C12 *)
Theorem C12_transport_rule : forall r m P P' fc,
  TransportMomentAtPoint (Torsor_Set r m P fc) P' fc = moment_at r m P P'.
Proof. intros; apply transport_eq. Qed.
Theorem C12_same_point : forall r m P fc, TransportMomentAtPoint (Torsor_Set r m P fc) P fc = m.
Proof. intros. rewrite transport_eq. destruct r, m, P; unfold moment_at; geo; veq; ring. Qed.
(** Re-setting the torsor with the transported moment does not change any later reading. *)
Theorem C12_transports_compose : forall r m P P1 P2 fc,
  TransportMomentAtPoint (Torsor_Set r (TransportMomentAtPoint (Torsor_Set r m P fc) P1 fc) P1 fc) P2 fc =
  TransportMomentAtPoint (Torsor_Set r m P fc) P2 fc.
Proof. intros. rewrite !transport_eq. destruct r, m, P, P1, P2; unfold moment_at; geo; veq; ring. Qed.
(** Power of a wrench (force F, torque T at A) on a twist (linear v, angular w at B), read at any
    two points P, P'. *)
Theorem C12_power_invariant : forall F T A v w B P P' fa fb,
  let fo := ForceTorsor F T A fa in let ve := VelocityTorsor v w B fb in
  dot3 (GetForce fo) (GetLinearVelocityAtPoint ve P NWU) + dot3 (GetTorqueAtPoint fo P NWU) (GetAngularVelocity ve) =
  dot3 (GetForce fo) (GetLinearVelocityAtPoint ve P' NWU) + dot3 (GetTorqueAtPoint fo P' NWU) (GetAngularVelocity ve).
Proof.
  intros [] [] [] [] [] [] [] [] [] []; unfold ForceTorsor, VelocityTorsor, GetForce, GetLinearVelocityAtPoint,
   GetTorqueAtPoint, GetAngularVelocity, TransportMomentAtPoint, Torsor_Set; cbn [t_res t_mom t_pt]; geo; ring.
Qed.
(** The linear velocity field is that of a rigid body: v(P) = v(B) + w x (P - B). *)
Theorem C12_velocity_field : forall v w B P fc,
  GetLinearVelocityAtPoint (VelocityTorsor v w B fc) P fc = plus3 v (cross3 w (minus3 P B)).
Proof. intros. unfold GetLinearVelocityAtPoint, VelocityTorsor. rewrite transport_eq. destruct v, w, B, P; unfold moment_at; geo; veq; ring. Qed.

(** * C13 *)
(** Any rotation built through the API, by any nesting of constructors, products and inverses, is
    a unit quaternion and rotates vectors as its textbook meaning says, in both conventions. *)
Theorem C13_rotation_expressions : forall e, rexp_ok e ->
  unitq (rexp_run e) /\ (exists f, rexp_spec e f) /\
  forall f v fc, rexp_spec e f -> UQ_Rotate (rexp_run e) v fc = convert fc (f (convert fc v)).
Proof. exact rexp_rotate. Qed.
Theorem C13_preserves_dot_and_cross : forall q a b fc, unitq q ->
  dot3 (UQ_Rotate q a fc) (UQ_Rotate q b fc) = dot3 a b /\
  cross3 (UQ_Rotate q a fc) (UQ_Rotate q b fc) = UQ_Rotate q (cross3 a b) fc.
Proof. exact rotate_isometry. Qed.
Theorem C13_product_and_inverse : forall p q v fc, unitq p -> unitq q ->
  UQ_Rotate (UQ_mul p q) v fc = UQ_Rotate p (UQ_Rotate q v fc) fc /\
  UQ_Rotate (UQ_Inverse q) (UQ_Rotate q v fc) fc = v /\
  UQ_Rotate q (UQ_Rotate (UQ_Inverse q) v fc) fc = v /\ UQ_mul q (UQ_Inverse q) = qone.
Proof. exact rotate_group. Qed.
Theorem C13_axes : forall q fc, unitq q ->
  UQ_GetXAxis q fc = UQ_Rotate q (V 1 0 0) fc /\ UQ_GetYAxis q fc = UQ_Rotate q (V 0 1 0) fc /\
  UQ_GetZAxis q fc = UQ_Rotate q (V 0 0 1) fc.
Proof. exact rotate_axes. Qed.
Theorem C13_matrix : forall q v, unitq q ->
  mv (UQ_GetRotationMatrix q) v = UQ_Rotate q v NWU /\ rotation_matrix (UQ_GetRotationMatrix q) /\
  UQ_GetInverseRotationMatrix q = mt (UQ_GetRotationMatrix q).
Proof. exact rotate_matrix. Qed.
Theorem C13_matrix_round_trip : forall m, rotation_matrix m ->
  UQ_GetRotationMatrix (UQ_SetMatrix m NWU) = m /\ UQ_GetRotationMatrix (UQ_SetMatrix m NED) = convert_mat NED m.
Proof. exact matrix_roundtrip. Qed.
Theorem C13_normalising_setter : forall a b c d fc, 0 < a * a + b * b + c * c + d * d -> unitq (UQ_SetElts a b c d true fc).
Proof. exact normalize_unit. Qed.
Example C13_example : rexp_ok (RMul (RAxis (V (3/5) 0 (4/5)) 2 NED) (RInv (RMul (RQuat (1/2) (1/2) (1/2) (1/2) NWU) (RCardan 1 2 3 NED)))).
Proof. cbn [rexp_ok]. unfold unit3, unitq; geo. repeat split; lra. Qed.

(** * C14 *)
Theorem C14_cardan_meaning : forall phi theta psi v fc,
  UQ_Rotate (Rot_SetCardan_RADIANS phi theta psi fc) v fc = mv (mm (Rz psi) (mm (Ry theta) (Rx phi))) v.
Proof. exact cardan_means. Qed.
(** psi = pi read in NED comes back as ... the half-open interval is mirrored, see [psi_range]. *)
Theorem C14_round_trip : forall phi theta psi fc,
  - PI < phi <= PI -> - (PI / 2) < theta < PI / 2 -> psi_range fc psi ->
  Rot_GetCardan_RADIANS (Rot_SetCardan_RADIANS phi theta psi fc) fc = Angles (Some phi) theta psi.
Proof. exact cardan_roundtrip. Qed.
(** Whenever the reported roll is a defined value the reported angles describe the rotation. *)
Theorem C14_reported_angles_describe_rotation : forall q fc phi theta psi v, unitq q ->
  Rot_GetCardan_RADIANS q fc = Angles (Some phi) theta psi ->
  UQ_Rotate (Rot_SetCardan_RADIANS phi theta psi fc) v fc = UQ_Rotate q v fc.
Proof. exact cardan_describes. Qed.
(** The roll is undefined (uninitialised variable) exactly when the x axis points up. *)
Theorem C99_undefined_roll : forall q fc, unitq q ->
  (a_phi (Rot_GetCardan_RADIANS q fc) = None <-> UQ_GetXAxis q NWU = V 0 0 1).
Proof. exact cardan_undefined. Qed.
Theorem C99_gimbal_refuted : exists q, unitq q /\ a_phi (Rot_GetCardan_RADIANS q NWU) = None /\
  q = Rot_SetCardan_RADIANS 0 (- (PI / 2)) 0 NWU.
Proof. exact cardan_gimbal_bad. Qed.
Example C14_example : - PI < 1 <= PI /\ - (PI / 2) < -1 < PI / 2 /\ psi_range NED (-2).
Proof. pose proof PI2_3_2. unfold psi_range. repeat split; lra. Qed.

(** * C15 *)
Theorem C15_group : forall a b c, unitq (frot a) -> unitq (frot b) ->
  Frame_mul (Frame_mul a b) c = Frame_mul a (Frame_mul b c) /\
  Frame_mul fident a = a /\ Frame_mul a fident = a /\
  Frame_mul a (Frame_Inverse a) = fident /\ Frame_mul (Frame_Inverse a) a = fident.
Proof.
  intros a b c Ha Hb. unfold Frame_mul, Frame_Inverse.
  rewrite chmul_assoc, chmul_1l, chmul_1r, chmul_inv_l, chmul_inv_r by auto. auto.
Qed.
Theorem C15_points : forall a b p fc, unitq (frot a) -> unitq (frot b) ->
  GetPointPositionInFrame a (GetPointPositionInParent a p fc) fc = p /\
  GetPointPositionInParent a (GetPointPositionInFrame a p fc) fc = p /\
  GetPointPositionInParent (Frame_mul a b) p fc = GetPointPositionInParent a (GetPointPositionInParent b p fc) fc /\
  GetPointPositionInParent (Frame_Inverse a) p fc = GetPointPositionInFrame a p fc.
Proof.
  intros a b p fc Ha Hb. split; [apply pmap_inv_l; auto|]. split; [apply pmap_inv_r; auto|].
  split; [apply pmap_mul; auto | apply pmap_inverse; auto].
Qed.
Theorem C15_distances : forall f p q fc, unitq (frot f) ->
  dist3 (GetPointPositionInParent f p fc) (GetPointPositionInParent f q fc) = dist3 p q.
Proof. intros; apply pmap_rigid; auto. Qed.
Theorem C15_relative_frames : forall f g, unitq (frot f) -> unitq (frot g) ->
  Frame_mul f (OtherRelThis f g) = g /\ Frame_mul g (ThisRelOther f g) = f.
Proof. intros; split; [apply relative_other | apply relative_this]; auto. Qed.
(** The composition and the inverse of frames stay valid frames. *)
Theorem C15_closure : forall a b, unitq (frot a) -> unitq (frot b) ->
  unitq (frot (Frame_mul a b)) /\ unitq (frot (Frame_Inverse a)).
Proof. intros; split; [apply unitf_mul | apply unitf_inv]; auto. Qed.
(** The two conventions see the same point map. *)
Theorem C15_conventions : forall f p, convert NED (GetPointPositionInParent f (convert NED p) NED) = GetPointPositionInParent f p NWU.
Proof. intros. rewrite !pointmap_convert. rewrite !convert_invol. reflexivity. Qed.
Example C15_example : unitq (frot fA) /\ unitq (frot fB) /\ Frame_mul fA fB <> Frame_mul fB fA.
Proof.
  split; [apply fA_unit|]. split; [apply fB_unit|]. unfold Frame_mul, chmul, fA, fB; geo. intro E; injection E; intros; lra.
Qed.

(** * C16 *)
(** Every sequence of in-place operations (positions, rotations in own axes, in parent axes, about
    x, y, z, translations, resets, inverse) has the documented meaning. *)
Theorem C16_every_operation_sequence : forall l f, List.Forall op_ok l -> unitq (frot f) ->
  unitq (frot (run_ops l f)) /\
  ops_mean l (fun p => GetPointPositionInParent f p NWU) (fun p => GetPointPositionInParent (run_ops l f) p NWU).
Proof. exact run_means. Qed.
Theorem C100_mul_assign_refuted : exists f g p, unitq (frot f) /\ unitq (frot g) /\
  GetPointPositionInParent (Frame_mul_assign f g) p NWU <> GetPointPositionInParent (Frame_mul f g) p NWU.
Proof. exact mul_assign_bad. Qed.
(** What F *= G actually does: it composes on the left. *)
Theorem C100_mul_assign_actual : forall f g, Frame_mul_assign f g = Frame_mul g f.
Proof. reflexivity. Qed.
Theorem C100_rotate_radians_refuted : exists f phi theta psi x, unitq (frot f) /\
  GetPointPositionInParent (RotateInFrame_Euler f phi theta psi NWU) x NWU <>
  GetPointPositionInParent f (mv (mm (Rz psi) (mm (Ry theta) (Rx phi))) x) NWU.
Proof. exact rotate_radians_bad. Qed.
(** What it actually does: the arguments are taken as degrees. *)
Theorem C100_rotate_takes_degrees : forall f phi theta psi fc x, unitq (frot f) ->
  GetPointPositionInParent (RotateInFrame_Euler f phi theta psi fc) x NWU =
  GetPointPositionInParent f (convert fc (mv (mm (Rz (psi * (PI / 180))) (mm (Ry (theta * (PI / 180))) (Rx (phi * (PI / 180))))) (convert fc x))) NWU.
Proof. exact rotate_degrees. Qed.
Theorem C100_rotate_parent_takes_degrees : forall f p t s fc x, unitq (frot f) ->
  pmap (RotateInParent_Euler f p t s fc) x = plus3 (pmap f origin)
    (convert fc (mv (mm (Rz (s * (PI / 180))) (mm (Ry (t * (PI / 180))) (Rx (p * (PI / 180))))) (convert fc (minus3 (pmap f x) (pmap f origin))))).
Proof. exact rotate_parent_degrees. Qed.
(** Projection on the horizontal plane: right for an upright frame whose x or y axis is horizontal... *)
Theorem C100_project_partial : forall tol f fc, 0 <= tol -> unitq (frot f) ->
  0 < vz (UQ_GetZAxis (frot f) NWU) ->
  vz (UQ_GetXAxis (frot f) NWU) = 0 \/ vz (UQ_GetYAxis (frot f) NWU) = 0 ->
  exists f' psi, ProjectToXYPlane tol f fc = Some f' /\ fpos f' = fpos f /\ unitq (frot f') /\
    UQ_GetRotationMatrix (frot f') = Rz psi /\
    exists k, 0 < k /\ vx (UQ_GetXAxis (frot f) NWU) = k * cos psi /\ vy (UQ_GetXAxis (frot f) NWU) = k * sin psi.
Proof. exact project_ok. Qed.
(** ... and fails (assertion) on an upright frame with both roll and pitch. *)
Theorem C100_project_refuted : exists f, unitq (frot f) /\ 0 < vz (UQ_GetZAxis (frot f) NWU) /\
  forall tol, tol < 1/2 -> ProjectToXYPlane tol f NWU = None.
Proof. exists fTilt. exact project_bad. Qed.
Example C16_example : List.Forall op_ok (ORotX 1 NED true :: OTranslateInFrame (V 1 2 3) NED :: ORotateInParent (Q (3/5) 0 0 (4/5)) :: OInverse :: nil).
Proof. repeat constructor. cbn [op_ok]. unfold unitq; geo. lra. Qed.
Example C16_project_example : 0 < vz (UQ_GetZAxis (Q (4/5) 0 (3/5) 0) NWU) /\ vz (UQ_GetYAxis (Q (4/5) 0 (3/5) 0) NWU) = 0.
Proof. geo. lra. Qed.

Print Assumptions C11_frame_position.
Print Assumptions C11_rotation_axes.
Print Assumptions C12_power_invariant.
Print Assumptions C13_rotation_expressions.
Print Assumptions C14_reported_angles_describe_rotation.
Print Assumptions C14_round_trip.
Print Assumptions C15_points.
Print Assumptions C16_every_operation_sequence.
Print Assumptions C100_project_partial.
