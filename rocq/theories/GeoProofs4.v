(** Final lemmas for C11-C16. *)
From Coq Require Import Reals List Lra Psatz Lia.
From Verif Require Import GeoModel GeoSpec GeoProofs GeoProofs2 GeoProofs3.
Open Scope R_scope.

(** C11 *)
Lemma swap_isometry : forall a b,
  SwapFrameConvention (SwapFrameConvention a) = a /\
  dot3 (SwapFrameConvention a) (SwapFrameConvention b) = dot3 a b /\
  cross3 (SwapFrameConvention a) (SwapFrameConvention b) = SwapFrameConvention (cross3 a b) /\
  dist3 (SwapFrameConvention a) (SwapFrameConvention b) = dist3 a b.
Proof.
  intros a b. change SwapFrameConvention with (convert NED). rewrite convert_invol, convert_dot, convert_cross.
  repeat split. unfold dist3. rewrite <- convert_minus, convert_dot. reflexivity.
Qed.
Definition components (set get : conv) (v : vec) : vec := convert get (convert set v).
Lemma comp_same : forall fc v, components fc fc v = v.
Proof. intros; apply convert_invol. Qed.
Lemma frame_position : forall f p fs fg,
  GetPosition (SetPosition f p fs) fg = components fs fg p /\
  GetPosition (Frame_make p (frot f) fs) fg = components fs fg p /\
  V (GetX (SetPosition f p fs) fg) (GetY (SetPosition f p fs) fg) (GetZ (SetPosition f p fs) fg) = components fs fg p /\
  (GetPosition (SetZ (SetY (SetX f (vx p) fs) (vy p) fs) (vz p) fs) fg = components fs fg p).
Proof.
  intros [[] []] [] [] []; unfold components, GetX, GetY, GetZ, SetX, SetY, SetZ, GetPosition, SetPosition, Frame_make; geo;
  repeat split; veq; ring.
Qed.
Lemma quat_elts : forall a b c d fs,
  UQ_GetElts (UQ_SetElts a b c d false fs) fs = Q a b c d.
Proof. intros a b c d []; unfold UQ_SetElts; geo; qeq; ring. Qed.
Lemma torsor_point : forall r m p fs fg, Torsor_GetPoint (Torsor_Set r m p fs) fg = components fs fg p.
Proof. intros; unfold Torsor_GetPoint, Torsor_Set, components; cbn [t_pt]; rewrite !swap_convert; reflexivity. Qed.
Lemma rot_axes : forall tol x y z fc q, rotation_matrix (M (vx x) (vx y) (vx z) (vy x) (vy y) (vy z) (vz x) (vz y) (vz z)) ->
  Rot_SetAxes tol x y z fc = Some q -> UQ_GetXAxis q fc = x /\ UQ_GetYAxis q fc = y /\ UQ_GetZAxis q fc = z.
Proof.
  intros tol x y z fc q H E. unfold Rot_SetAxes in E.
  destruct (_ && _)%bool; [|discriminate]. injection E as <-.
  unfold UQ_SetMatrix, UQ_GetXAxis, UQ_GetYAxis, UQ_GetZAxis.
  assert (I : forall q, qswap_if fc (qswap_if fc q) = q) by (intros []; destruct fc; geo; qeq; ring).
  rewrite !I. destruct (A_quat_sound _ H) as [_ K].
  set (r := Get_A_quaternion _) in *. clearbody r. destruct x, y, z, r; geo.
  injection K; intros. repeat split; veq; lra.
Qed.
Lemma rot_axes_assert : forall tol x y z fc, 0 <= tol -> rotation_matrix (M (vx x) (vx y) (vx z) (vy x) (vy y) (vy z) (vz x) (vz y) (vz z)) ->
  exists q, Rot_SetAxes tol x y z fc = Some q.
Proof.
  intros tol x y z fc Ht (H & _ & _). unfold Rot_SetAxes.
  destruct x, y, z; geo; injection H; intros. eexists.
  rewrite !IsClose_eq; auto; unfold vnorm; geo;
   try match goal with |- sqrt ?e = 1 => replace e with 1 by lra; apply sqrt_1 end; try lra. reflexivity.
Qed.
(** FrFrame::Set(pos,e1,e2,e3,NED) *)
Lemma frame_set_axes_bad : exists e1 e2 e3,
  rotation_matrix (M (vx e1) (vx e2) (vx e3) (vy e1) (vy e2) (vy e3) (vz e1) (vz e2) (vz e3)) /\
  UQ_GetXAxis (frot (Frame_SetAxes fident origin e1 e2 e3 NED)) NED <> e1.
Proof.
  exists (V 0 1 0), (V (-1) 0 0), (V 0 0 1).
  assert (H : rotation_matrix (M 0 (-1) 0 1 0 0 0 0 1)).
  { unfold rotation_matrix; geo; split; [|split]; [meq; ring | meq; ring | ring]. }
  split; [exact H|].
  unfold Frame_SetAxes; cbn [frot vx vy vz]. destruct (A_quat_sound _ H) as [_ K].
  set (r := Get_A_quaternion _) in *. clearbody r. intro E. destruct r; geo. injection K; injection E; intros. lra.
Qed.
Lemma frame_set_axes_nwu : forall f p e1 e2 e3,
  rotation_matrix (M (vx e1) (vx e2) (vx e3) (vy e1) (vy e2) (vy e3) (vz e1) (vz e2) (vz e3)) ->
  let g := Frame_SetAxes f p e1 e2 e3 NWU in
  UQ_GetXAxis (frot g) NWU = e1 /\ UQ_GetYAxis (frot g) NWU = e2 /\ UQ_GetZAxis (frot g) NWU = e3 /\ GetPosition g NWU = p.
Proof.
  intros f p e1 e2 e3 H g. unfold g, Frame_SetAxes; cbn [frot]. destruct (A_quat_sound _ H) as [_ K].
  set (r := Get_A_quaternion _) in *. clearbody r. destruct e1, e2, e3, p, r; unfold GetPosition; geo. injection K; intros.
  repeat split; try (veq; lra).
Qed.

(** C13 *)
Lemma rexp_spec_fun : forall e f g, rexp_spec e f -> rexp_spec e g -> forall v, f v = g v.
Proof.
  intros e f g Hf. revert g. induction Hf; intros g' Hg v; inversion Hg; subst.
  - match goal with K : rexp_spec a ?f1, A : forall v, ?f1 (g' v) = v |- _ => rename K into S1; rename A into A1 end.
    specialize (IHHf _ S1). rewrite <- (H0 (g' v)). rewrite IHHf, A1. reflexivity.
  - rewrite H. match goal with A : forall v, g' v = _ |- _ => rewrite A end.
    erewrite IHHf2 by eauto. erewrite IHHf1 by eauto. reflexivity.
  - rewrite H. match goal with A : forall v, g' v = _ |- _ => rewrite A end. erewrite IHHf by eauto. reflexivity.
  - rewrite H. match goal with A : forall v, g' v = _ |- _ => rewrite A end. reflexivity.
  - rewrite H. match goal with A : forall v, g' v = _ |- _ => rewrite A end. reflexivity.
  - rewrite H. match goal with A : forall v, g' v = _ |- _ => rewrite A end. reflexivity.
  - rewrite H. match goal with A : forall v, g' v = _ |- _ => rewrite A end. reflexivity.
  - rewrite H. match goal with A : forall v, g' v = _ |- _ => rewrite A end. reflexivity.
Qed.
Lemma rexp_rotate : forall e, rexp_ok e ->
  unitq (rexp_run e) /\ (exists f, rexp_spec e f) /\
  forall f v fc, rexp_spec e f -> UQ_Rotate (rexp_run e) v fc = convert fc (f (convert fc v)).
Proof.
  intros e H. destruct (rexp_sound e H) as [U S0]. split; auto. split; [eauto|].
  intros f v fc Sf. rewrite UQ_Rotate_convert. rewrite (rexp_spec_fun _ _ _ S0 Sf). reflexivity.
Qed.
Lemma rotate_isometry : forall q a b fc, unitq q ->
  dot3 (UQ_Rotate q a fc) (UQ_Rotate q b fc) = dot3 a b /\
  cross3 (UQ_Rotate q a fc) (UQ_Rotate q b fc) = UQ_Rotate q (cross3 a b) fc.
Proof.
  intros. rewrite !UQ_Rotate_convert, convert_dot, convert_cross, qrotate_dot, convert_dot, qrotate_cross, convert_cross by auto.
  auto.
Qed.
Lemma rotate_group : forall p q v fc, unitq p -> unitq q ->
  UQ_Rotate (UQ_mul p q) v fc = UQ_Rotate p (UQ_Rotate q v fc) fc /\
  UQ_Rotate (UQ_Inverse q) (UQ_Rotate q v fc) fc = v /\
  UQ_Rotate q (UQ_Rotate (UQ_Inverse q) v fc) fc = v /\ UQ_mul q (UQ_Inverse q) = qone.
Proof.
  intros. rewrite !UQ_Rotate_convert, !convert_invol. unfold UQ_mul, UQ_Inverse.
  rewrite qrotate_mul, qrotate_conj_l, qrotate_conj_r, convert_invol, qmul_conj_r by auto. auto.
Qed.
Lemma rotate_axes : forall q fc, unitq q ->
  UQ_GetXAxis q fc = UQ_Rotate q (V 1 0 0) fc /\ UQ_GetYAxis q fc = UQ_Rotate q (V 0 1 0) fc /\
  UQ_GetZAxis q fc = UQ_Rotate q (V 0 0 1) fc.
Proof. intros [] []; geo; repeat split; veq; ring. Qed.
Lemma rotate_matrix : forall q v, unitq q ->
  mv (UQ_GetRotationMatrix q) v = UQ_Rotate q v NWU /\ rotation_matrix (UQ_GetRotationMatrix q) /\
  UQ_GetInverseRotationMatrix q = mt (UQ_GetRotationMatrix q).
Proof.
  intros q v H. split; [apply qrotate_mat|]. split; [apply rotmat_unit; auto|].
  unfold UQ_GetInverseRotationMatrix, qinverse. unfold qnorm2. unfold unitq in H. rewrite H.
  destruct q; geo; meq; field.
Qed.
Lemma matrix_roundtrip : forall m, rotation_matrix m ->
  UQ_GetRotationMatrix (UQ_SetMatrix m NWU) = m /\ UQ_GetRotationMatrix (UQ_SetMatrix m NED) = convert_mat NED m.
Proof.
  intros m H. destruct (A_quat_sound m H) as [_ K]. unfold UQ_SetMatrix, UQ_GetRotationMatrix. split; [exact K|].
  transitivity (convert_mat NED (Set_A_quaternion (Get_A_quaternion m))).
  - generalize (Get_A_quaternion m); intros []; geo; meq; ring.
  - rewrite K; reflexivity.
Qed.
Lemma normalize_unit : forall a b c d fc, 0 < a * a + b * b + c * c + d * d -> unitq (UQ_SetElts a b c d true fc).
Proof.
  intros a b c d fc H. unfold UQ_SetElts, qnormalize.
  assert (E : qnorm2 (qswap_if fc (Q a b c d)) = a * a + b * b + c * c + d * d) by (destruct fc; geo; ring).
  unfold qlen. rewrite E. set (n := sqrt _).
  assert (N : 0 < n) by (apply sqrt_lt_R0; auto).
  assert (NN : n * n = a * a + b * b + c * c + d * d) by (apply sqrt_sqrt; lra).
  assert (X : (a * a + b * b + c * c + d * d) / (n * n) = 1) by (rewrite <- NN; field; lra).
  unfold unitq. rewrite <- X. destruct fc; geo; field; lra.
Qed.

(** C14 *)
Lemma convert_mat_mm : forall fc a b, convert_mat fc (mm a b) = mm (convert_mat fc a) (convert_mat fc b).
Proof. intros [] [] []; geo; meq; ring. Qed.
Lemma mat_swap : forall fc q, Set_A_quaternion (qswap_if fc q) = convert_mat fc (Set_A_quaternion q).
Proof. intros [] []; geo; meq; ring. Qed.
Lemma cardan_means : forall p t s v fc,
  UQ_Rotate (Rot_SetCardan_RADIANS p t s fc) v fc = mv (mm (Rz s) (mm (Ry t) (Rx p))) v.
Proof.
  intros. rewrite UQ_Rotate_convert, setcardan_swap, qrotate_swap, !convert_invol, <- qrotate_mat, cardan_matrix. reflexivity.
Qed.
Definition psi_range (fc : conv) (s : R) : Prop := match fc with NWU => - PI < s <= PI | NED => - PI <= s < PI end.
Lemma cardan_roundtrip : forall p t s fc, - PI < p <= PI -> - (PI / 2) < t < PI / 2 -> psi_range fc s ->
  Rot_GetCardan_RADIANS (Rot_SetCardan_RADIANS p t s fc) fc = Angles (Some p) t s.
Proof.
  intros p t s fc Hp Ht Hs. unfold Rot_GetCardan_RADIANS, Rot_SetCardan_RADIANS. cbv zeta.
  destruct fc; cbn [IsNED psi_range] in *; rewrite cardan_matrix, mat2eul_cardan by lra; auto.
  cbn [a_phi a_theta a_psi]. rewrite !Ropp_involutive. reflexivity.
Qed.
Lemma cardan_describes : forall q fc p t s v, unitq q -> Rot_GetCardan_RADIANS q fc = Angles (Some p) t s ->
  UQ_Rotate (Rot_SetCardan_RADIANS p t s fc) v fc = UQ_Rotate q v fc.
Proof.
  intros q fc p t s v Hq E. rewrite !UQ_Rotate_convert. f_equal. rewrite <- !qrotate_mat. f_equal.
  unfold Rot_GetCardan_RADIANS in E; cbv zeta in E.
  pose proof (rotmat_unit q Hq) as HR. destruct (mat2eul_xyz (Set_A_quaternion q)) as [p' t' s'] eqn:A.
  unfold Rot_SetCardan_RADIANS. destruct fc; cbn [IsNED a_phi a_theta a_psi] in *; injection E as E1 E2 E3; subst.
  - rewrite cardan_matrix. eapply mat2eul_sound; eauto.
  - rewrite cardan_matrix, !Ropp_involutive. eapply mat2eul_sound; eauto.
Qed.
Lemma cardan_undefined : forall q fc, unitq q ->
  (a_phi (Rot_GetCardan_RADIANS q fc) = None <-> UQ_GetXAxis q NWU = V 0 0 1).
Proof.
  intros q fc Hq. pose proof (rotmat_unit q Hq) as HR.
  transitivity (a_phi (mat2eul_xyz (Set_A_quaternion q)) = None).
  - unfold Rot_GetCardan_RADIANS; cbv zeta; destruct fc; cbn [IsNED a_phi]; tauto.
  - rewrite mat2eul_undef by auto.
    assert (E : UQ_GetXAxis q NWU = V (m00 (Set_A_quaternion q)) (m10 (Set_A_quaternion q)) (m20 (Set_A_quaternion q))) by reflexivity.
    rewrite E. destruct (Set_A_quaternion q) as [a b c d e f g h i]. rotfacts HR. cbn [m20 m00 m10] in *.
    assert (N : a * a + d * d + g * g = 1) by lra. clear - N.
    split; intro K; [|injection K; auto]. subst g. assert (a = 0) by nra. assert (d = 0) by nra. subst; reflexivity.
Qed.
Lemma cardan_gimbal_bad : exists q, unitq q /\ a_phi (Rot_GetCardan_RADIANS q NWU) = None /\
  q = Rot_SetCardan_RADIANS 0 (- (PI / 2)) 0 NWU.
Proof.
  exists (Rot_SetCardan_RADIANS 0 (- (PI / 2)) 0 NWU). assert (U : unitq (Rot_SetCardan_RADIANS 0 (- (PI / 2)) 0 NWU)) by apply unitq_cardan.
  split; auto. split; auto. apply cardan_undefined; auto.
  destruct (rotate_axes _ NWU U) as [-> _]. rewrite cardan_means.
  unfold Rx, Ry, Rz; geo. rewrite cos_0, sin_0, cos_neg, sin_neg, cos_PI2, sin_PI2. veq; ring.
Qed.

(** C15 *)
Lemma relative_other : forall f g, unitf f -> unitf g -> Frame_mul f (OtherRelThis f g) = g.
Proof.
  intros. unfold Frame_mul, OtherRelThis, Frame_mul, Frame_Inverse.
  rewrite <- chmul_assoc, chmul_inv_r, chmul_1l by (auto using unitf_inv). reflexivity.
Qed.
Lemma relative_this : forall f g, unitf f -> unitf g -> Frame_mul g (ThisRelOther f g) = f.
Proof.
  intros. unfold ThisRelOther, OtherRelThis, Frame_mul, Frame_Inverse.
  rewrite chinv_mul, chinv_invol by (auto using unitf_inv).
  rewrite <- chmul_assoc, chmul_inv_r, chmul_1l by (auto using unitf_inv). reflexivity.
Qed.

(** C16 *)
Definition fA : frame := Fr (V 1 0 0) qone.
Definition fB : frame := Fr (V 0 0 0) (Q (3/5) 0 0 (4/5)).
Lemma fA_unit : unitf fA. Proof. unfold unitf, fA, unitq; geo; lra. Qed.
Lemma fB_unit : unitf fB. Proof. unfold unitf, fB, unitq; geo; lra. Qed.
Lemma mul_assign_bad : exists f g p, unitf f /\ unitf g /\
  GetPointPositionInParent (Frame_mul_assign f g) p NWU <> GetPointPositionInParent (Frame_mul f g) p NWU.
Proof.
  exists fA, fB, origin. split; [apply fA_unit|]. split; [apply fB_unit|].
  rewrite !pointmap_convert. unfold Frame_mul_assign, chrshift_assign, Frame_mul, chmul, fA, fB; cbn [fpos frot]; geo.
  intro E. injection E. intros. lra.
Qed.
Lemma rotate_degrees : forall f p t s fc x, unitf f ->
  pmap (RotateInFrame_Euler f p t s fc) x = pmap f (convert fc (mv (mm (Rz (s * (PI / 180))) (mm (Ry (t * (PI / 180))) (Rx (p * (PI / 180))))) (convert fc x))).
Proof.
  intros. rewrite !pmap_eq. unfold RotateInFrame_Euler, RotateInFrame; cbn [fpos frot].
  unfold Rot_SetCardan_DEGREES. rewrite setcardan_swap.
  rewrite qrotate_mul by (auto using unitq_swap, unitq_cardan).
  rewrite qrotate_swap, <- (qrotate_mat (euler_to_quat _ _ _)), cardan_matrix. reflexivity.
Qed.
Lemma rotate_radians_bad : exists f p t s x, unitf f /\
  pmap (RotateInFrame_Euler f p t s NWU) x <> pmap f (mv (mm (Rz s) (mm (Ry t) (Rx p))) x).
Proof.
  exists fident, PI, 0, 0, (V 0 1 0). split; [apply unitq_one|].
  rewrite rotate_degrees by apply unitq_one. rewrite !pmap_eq. unfold fident; cbn [fpos frot].
  rewrite !qrotate_one. unfold Rx, Ry, Rz; geo.
  replace (0 * (PI / 180)) with 0 by ring. rewrite cos_0, sin_0, cos_PI, sin_PI. intro E. injection E. intros _ K _.
  assert (0 < cos (PI * (PI / 180))).
  { pose proof PI_RGT_0. pose proof PI_4. apply cos_gt_0; nra. }
  lra.
Qed.
Lemma rotate_parent_degrees : forall f p t s fc x, unitf f ->
  pmap (RotateInParent_Euler f p t s fc) x = plus3 (pmap f origin)
    (convert fc (mv (mm (Rz (s * (PI / 180))) (mm (Ry (t * (PI / 180))) (Rx (p * (PI / 180))))) (convert fc (minus3 (pmap f x) (pmap f origin))))).
Proof.
  intros. rewrite pmap0, !pmap_eq. unfold RotateInParent_Euler, RotateInParent; cbn [fpos frot].
  unfold Rot_SetCardan_DEGREES. rewrite setcardan_swap.
  rewrite qrotate_mul by (auto using unitq_swap, unitq_cardan).
  rewrite qrotate_swap, <- (qrotate_mat (euler_to_quat _ _ _)), cardan_matrix, plus_minus3. reflexivity.
Qed.
Definition fTilt : frame := Fr (V 0 0 0) (Q (16/25) (12/25) (12/25) (-9/25)).
Lemma project_bad : unitf fTilt /\ 0 < m22 (UQ_GetRotationMatrix (frot fTilt)) /\
  forall tol, tol < 1/2 -> ProjectToXYPlane tol fTilt NWU = None.
Proof.
  split; [unfold unitf, fTilt, unitq; cbn [frot q0 q1 q2 q3]; lra|]. split; [unfold fTilt; geo; lra|].
  intros tol Ht. unfold ProjectToXYPlane, UQ_GetXAxis, UQ_GetYAxis, fTilt; cbn [frot].
  set (X := vnormalize (V (vx (qxaxis _)) _ _)). set (Y := vnormalize (V (vx (qyaxis _)) _ _)).
  assert (EX : X = V 1 0 0).
  { unfold X. transitivity (vnormalize (V (7/25 * 1) (7/25 * 0) (7/25 * 0))).
    - f_equal. geo. veq; lra.
    - apply vnorm_scaled; lra. }
  assert (EY : 576/625 <= vx Y).
  { unfold Y.
    replace (V (vx (qyaxis (qswap_if NWU (Q (16 / 25) (12 / 25) (12 / 25) (-9 / 25)))))
               (vy (qyaxis (qswap_if NWU (Q (16 / 25) (12 / 25) (12 / 25) (-9 / 25))))) 0)
      with (V (576/625) (175/625) 0) by (geo; veq; lra).
    unfold vnormalize. destruct (Rlt_dec _ _) as [Hp|Hp]; [|cbn [vx]; lra].
    unfold vnorm. set (n := sqrt _).
    assert (N0 : 0 < n) by (apply sqrt_lt_R0; exact Hp).
    assert (N1 : n <= 1) by (rewrite <- sqrt_1; apply sqrt_le_1_alt; geo; lra).
    assert (1 <= / n) by (rewrite <- Rinv_1; apply Rinv_le_contravar; lra).
    geo. nra. }
  rewrite EX. clearbody Y. unfold Rot_SetAxes.
  assert (C : IsClose tol (vdot (V 1 0 0) Y) 0 = false).
  { unfold IsClose. destruct Y as [y1 y2 y3]; geo. destruct (Rle_dec _ _) as [L|L]; auto. exfalso.
    replace (1 * y1 + 0 * y2 + 0 * y3 - 0) with y1 in L by ring. rewrite Rabs_pos_eq in L; lra. }
  rewrite C. reflexivity.
Qed.
