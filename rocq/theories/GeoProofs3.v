(** Proofs for frames, in-place frame operations, torsors. *)
From Coq Require Import Reals List Lra Psatz Lia.
From Verif Require Import GeoModel GeoSpec GeoProofs GeoProofs2.
Open Scope R_scope.

Lemma vadd_plus : forall a b, vadd a b = plus3 a b. Proof. reflexivity. Qed.
Lemma vsub_minus : forall a b, vsub a b = minus3 a b. Proof. reflexivity. Qed.

Lemma UQ_Rotate_convert : forall q v fc, UQ_Rotate q v fc = convert fc (qrotate q (convert fc v)).
Proof. intros; unfold UQ_Rotate; rewrite !swap_convert; reflexivity. Qed.
Lemma pointmap_convert : forall f p fc,
  GetPointPositionInParent f p fc = convert fc (plus3 (fpos f) (qrotate (frot f) (convert fc p))).
Proof.
  intros. unfold GetPointPositionInParent, GetPosition, ProjectVectorFrameInParent.
  rewrite UQ_Rotate_convert, swap_convert, vadd_plus, convert_plus. reflexivity.
Qed.
Lemma pointinv_convert : forall f p fc,
  GetPointPositionInFrame f p fc = convert fc (qrotate (qconj (frot f)) (minus3 (convert fc p) (fpos f))).
Proof.
  intros. unfold GetPointPositionInFrame, GetPosition, ProjectVectorParentInFrame, UQ_Inverse.
  rewrite UQ_Rotate_convert, swap_convert, vsub_minus, convert_minus, convert_invol. reflexivity.
Qed.

Lemma plus_minus3 : forall a b, minus3 (plus3 a b) a = b.
Proof. intros [] []; geo; veq; ring. Qed.
Lemma minus_plus3 : forall a b, plus3 a (minus3 b a) = b.
Proof. intros [] []; geo; veq; ring. Qed.
Lemma plus_assoc3 : forall a b c, plus3 (plus3 a b) c = plus3 a (plus3 b c).
Proof. intros [] [] []; geo; veq; ring. Qed.
Lemma minus_plus_l : forall a b c, minus3 (plus3 a b) (plus3 a c) = minus3 b c.
Proof. intros [] [] []; geo; veq; ring. Qed.

Lemma qrotate_plus3 : forall q a b, qrotate q (plus3 a b) = plus3 (qrotate q a) (qrotate q b).
Proof. exact qrotate_plus. Qed.
Definition unitf (f : frame) : Prop := unitq (frot f).

(** *** group laws *)
Lemma chmul_assoc : forall a b c, unitf a -> unitf b -> chmul (chmul a b) c = chmul a (chmul b c).
Proof.
  intros a b c Ha Hb. unfold chmul; cbn [fpos frot]. f_equal; [|apply qmul_assoc].
  rewrite qrotate_mul by auto. rewrite qrotate_plus.
  generalize (fpos a) (qrotate (frot a) (fpos b)) (qrotate (frot a) (qrotate (frot b) (fpos c))).
  intros [] [] []; geo; veq; ring.
Qed.
Lemma chmul_1l : forall a, chmul fident a = a.
Proof.
  intros [[] q]; unfold chmul, fident; cbn [fpos frot]. rewrite qmul_1l, qrotate_one.
  f_equal. geo; veq; ring.
Qed.
Lemma chmul_1r : forall a, chmul a fident = a.
Proof.
  intros [[] []]; unfold chmul, fident; cbn [fpos frot]. rewrite qmul_1r.
  f_equal. geo; veq; ring.
Qed.
Lemma chmul_inv_r : forall a, unitf a -> chmul a (chinv a) = fident.
Proof.
  intros [[x y z] [a b c d]] H; unfold chmul, chinv, fident; cbn [fpos frot].
  rewrite qmul_conj_r by exact H. f_equal.
  unfold unitf in H; cbn [frot] in H. apply unitq_elim in H. geo; veq; ring [H].
Qed.
Lemma chmul_inv_l : forall a, unitf a -> chmul (chinv a) a = fident.
Proof.
  intros [[x y z] [a b c d]] H; unfold chmul, chinv, fident; cbn [fpos frot].
  rewrite qmul_conj_l by exact H. f_equal.
  geo; veq; ring.
Qed.
Lemma unitf_inv : forall a, unitf a -> unitf (chinv a).
Proof. intros; apply unitq_conj; auto. Qed.
Lemma unitf_mul : forall a b, unitf a -> unitf b -> unitf (chmul a b).
Proof. intros; apply unitq_mul; auto. Qed.
Lemma chinv_invol : forall a, unitf a -> chinv (chinv a) = a.
Proof.
  intros a H. rewrite <- (chmul_1r (chinv (chinv a))), <- (chmul_inv_l a H).
  rewrite <- chmul_assoc by (repeat apply unitf_inv; auto).
  rewrite chmul_inv_l by (apply unitf_inv; auto). apply chmul_1l.
Qed.
Lemma chinv_mul : forall a b, unitf a -> unitf b -> chinv (chmul a b) = chmul (chinv b) (chinv a).
Proof.
  intros a b Ha Hb.
  assert (E : chmul (chmul a b) (chmul (chinv b) (chinv a)) = fident).
  { rewrite chmul_assoc by auto. rewrite <- (chmul_assoc b) by (auto using unitf_inv).
    rewrite chmul_inv_r, chmul_1l by auto. apply chmul_inv_r; auto. }
  rewrite <- (chmul_1r (chinv (chmul a b))), <- E.
  rewrite <- chmul_assoc by (auto using unitf_inv, unitf_mul).
  rewrite chmul_inv_l by (auto using unitf_mul). apply chmul_1l.
Qed.

(** *** point maps *)
Definition pmap (f : frame) : motion := fun p => GetPointPositionInParent f p NWU.
Lemma pmap_eq : forall f p, pmap f p = plus3 (fpos f) (qrotate (frot f) p).
Proof. intros; unfold pmap; rewrite pointmap_convert; reflexivity. Qed.
Lemma pmap_mul : forall a b p fc, unitf a -> unitf b ->
  GetPointPositionInParent (chmul a b) p fc = GetPointPositionInParent a (GetPointPositionInParent b p fc) fc.
Proof.
  intros a b p fc Ha Hb. rewrite !pointmap_convert, convert_invol. f_equal.
  unfold chmul; cbn [fpos frot]. rewrite qrotate_mul by auto.
  change (vadd (fpos a) (qrotate (frot a) (fpos b))) with (plus3 (fpos a) (qrotate (frot a) (fpos b))).
  rewrite qrotate_plus3, plus_assoc3. reflexivity.
Qed.
Lemma pmap_inv_l : forall f p fc, unitf f -> GetPointPositionInFrame f (GetPointPositionInParent f p fc) fc = p.
Proof.
  intros. rewrite pointinv_convert, pointmap_convert, convert_invol, plus_minus3, qrotate_conj_l, convert_invol by auto.
  reflexivity.
Qed.
Lemma pmap_inv_r : forall f p fc, unitf f -> GetPointPositionInParent f (GetPointPositionInFrame f p fc) fc = p.
Proof.
  intros. rewrite pointinv_convert, pointmap_convert, convert_invol, qrotate_conj_r, minus_plus3, convert_invol by auto.
  reflexivity.
Qed.
Lemma pmap_inverse : forall f p fc, unitf f -> GetPointPositionInParent (chinv f) p fc = GetPointPositionInFrame f p fc.
Proof.
  intros [[] []] [] fc H. rewrite pointinv_convert, pointmap_convert. f_equal.
  unfold chinv; cbn [fpos frot]. destruct fc; geo; veq; ring.
Qed.
Lemma pmap_rigid : forall f fc a b, unitf f ->
  dist3 (GetPointPositionInParent f a fc) (GetPointPositionInParent f b fc) = dist3 a b.
Proof.
  intros. unfold dist3. f_equal. rewrite !pointmap_convert.
  rewrite <- convert_minus, minus_plus_l, convert_dot, <- qrotate_minus, qrotate_dot, <- convert_minus, convert_dot by auto.
  reflexivity.
Qed.
Lemma frame_ext : forall f g, (forall p, pmap f p = pmap g p) ->
  fpos f = fpos g /\ (forall p, qrotate (frot f) p = qrotate (frot g) p).
Proof.
  intros f g H.
  assert (P0 : forall h, pmap h origin = fpos h).
  { intros [[] []]; rewrite pmap_eq; cbn [fpos frot]; geo; veq; ring. }
  assert (E : fpos f = fpos g) by (rewrite <- !P0; apply H).
  split; auto. intros p. specialize (H p). rewrite !pmap_eq, E in H.
  rewrite <- (plus_minus3 (fpos g) (qrotate (frot f) p)), H. apply plus_minus3.
Qed.

(** *** elementary rotations as axis-angle *)
Lemma rod_x : forall a v, rodrigues (V 1 0 0) a v = mv (Rx a) v.
Proof. intros a []; unfold rodrigues, Rx; geo; veq; ring. Qed.
Lemma rod_y : forall a v, rodrigues (V 0 1 0) a v = mv (Ry a) v.
Proof. intros a []; unfold rodrigues, Ry; geo; veq; ring. Qed.
Lemma rod_z : forall a v, rodrigues (V 0 0 1) a v = mv (Rz a) v.
Proof. intros a []; unfold rodrigues, Rz; geo; veq; ring. Qed.
Lemma Rx_ned : forall a fc v, mv (convert_mat fc (Rx a)) v = mv (Rx a) v.
Proof. intros a [] []; unfold Rx; geo; veq; ring. Qed.
Lemma Ry_ned : forall a fc v, mv (convert_mat fc (Ry a)) v = mv (Ry (if IsNED fc then - a else a)) v.
Proof. intros a [] []; unfold Ry; geo; rewrite ?cos_neg, ?sin_neg; veq; ring. Qed.
Lemma Rz_ned : forall a fc v, mv (convert_mat fc (Rz a)) v = mv (Rz (if IsNED fc then - a else a)) v.
Proof. intros a [] []; unfold Rz; geo; rewrite ?cos_neg, ?sin_neg; veq; ring. Qed.
Lemma unit_ex : unit3 (V 1 0 0) /\ unit3 (V 0 1 0) /\ unit3 (V 0 0 1).
Proof. unfold unit3; geo; repeat split; ring. Qed.
Lemma qxaxis_rot : forall q, qxaxis q = qrotate q (V 1 0 0).
Proof. intros []; geo; veq; ring. Qed.
Lemma qyaxis_rot : forall q, qyaxis q = qrotate q (V 0 1 0).
Proof. intros []; geo; veq; ring. Qed.
Lemma qzaxis_rot : forall q, qzaxis q = qrotate q (V 0 0 1).
Proof. intros []; geo; veq; ring. Qed.
Lemma unit3_rot : forall q u, unitq q -> unit3 u -> unit3 (qrotate q u).
Proof. intros; unfold unit3; rewrite qrotate_dot; auto. Qed.
(** Rotating about a rotated axis is rotating inside. *)
Lemma rod_conj : forall q u a v, unitq q ->
  rodrigues (qrotate q u) a (qrotate q v) = qrotate q (rodrigues u a v).
Proof.
  intros q u a v H. unfold rodrigues. rewrite qrotate_cross, qrotate_dot by auto.
  destruct q, u, v; geo; veq; ring.
Qed.
Lemma local_axis : forall q u a v, unitq q -> unit3 u ->
  qrotate (qmul (Q_from_AngAxis a (qrotate q u)) q) v = qrotate q (rodrigues u a v).
Proof.
  intros. rewrite qrotate_mul; auto using unitq_angaxis, unit3_rot.
  rewrite angaxis_rodrigues by (auto using unit3_rot). apply rod_conj; auto.
Qed.

(** *** in-place operations *)
Lemma pmap0 : forall f, pmap f origin = fpos f.
Proof. intros [[] []]; rewrite pmap_eq; cbn [fpos frot]; geo; veq; ring. Qed.

Lemma step_unit : forall o f, op_ok o -> unitf f -> unitf (frame_step o f).
Proof.
  intros o f Ho Hf. destruct unit_ex as (Ux & Uy & Uz).
  unfold unitf in *; destruct o; cbn [frame_step op_ok] in *;
  unfold SetPosition, SetRotation, SetNoRotation, SetNoTranslation, SetIdentity, TranslateInParent, TranslateInFrame, TranslateInParent,
   RotateInFrame, RotateInFrame_AxisAngle, RotateInParent, RotateInParent_AxisAngle, SetRotX_RADIANS, SetRotY_RADIANS, SetRotZ_RADIANS,
   RotX_RADIANS, RotY_RADIANS, RotZ_RADIANS, RotateInFrame, RotateInParent, SetIdentity, fident, UQ_SetAxisAngle, Frame_Inverse, chinv; cbn [fpos frot];
   rewrite ?swap_convert, ?qxaxis_rot, ?qyaxis_rot, ?qzaxis_rot;
   try (destruct localAxis);
   auto 6 using unitq_one, unitq_mul, unitq_angaxis, unit3_convert, unitq_conj, unit3_rot.
Qed.

Lemma step_means : forall o f, op_ok o -> unitf f -> op_means o (pmap f) (pmap (frame_step o f)).
Proof.
  intros o f Ho Hf. destruct unit_ex as (Ux & Uy & Uz). unfold op_means; cbv zeta. rewrite pmap0.
  unfold unitf in *; destruct o; cbn [frame_step op_ok] in *;
  unfold SetRotX_RADIANS, SetRotY_RADIANS, SetRotZ_RADIANS, RotX_RADIANS, RotY_RADIANS, RotZ_RADIANS;
  try (destruct localAxis); try intro x; rewrite ?pmap_eq;
  unfold SetPosition, SetRotation, SetNoRotation, SetNoTranslation, SetIdentity, TranslateInParent, TranslateInFrame, TranslateInParent,
   RotateInFrame, RotateInFrame_AxisAngle, RotateInParent, RotateInParent_AxisAngle,
   RotateInFrame, RotateInParent, UQ_SetAxisAngle, fident; cbn [fpos frot];
   rewrite ?swap_convert, ?qxaxis_rot, ?qyaxis_rot, ?qzaxis_rot, ?plus_minus3, ?Rx_ned, ?Ry_ned, ?Rz_ned, ?qrotate_one, ?qmul_1r;
   rewrite <- ?rod_x, <- ?rod_y, <- ?rod_z.
  - reflexivity.
  - rewrite qrotate_action by auto. reflexivity.
  - reflexivity.
  - destruct (qrotate (frot f) x); geo; veq; ring.
  - destruct x; geo; veq; ring.
  - destruct (fpos f), (convert fc t), (qrotate (frot f) x); geo; veq; ring.
  - unfold ProjectVectorFrameInParent. rewrite UQ_Rotate_convert, convert_invol.
    rewrite qrotate_plus3.
    destruct (fpos f), (qrotate (frot f) (convert fc t)), (qrotate (frot f) x); geo; veq; ring.
  - rewrite qrotate_mul, <- qrotate_action by auto. reflexivity.
  - rewrite qrotate_mul, angaxis_rodrigues by (auto using unitq_angaxis, unit3_convert). reflexivity.
  - rewrite qrotate_mul, <- qrotate_action by auto. reflexivity.
  - rewrite qrotate_mul, angaxis_rodrigues by (auto using unitq_angaxis, unit3_convert). reflexivity.
  - rewrite local_axis by auto. reflexivity.
  - rewrite qrotate_mul, angaxis_rodrigues by (auto using unitq_angaxis). reflexivity.
  - rewrite local_axis by auto. reflexivity.
  - rewrite qrotate_mul, angaxis_rodrigues by (auto using unitq_angaxis). reflexivity.
  - rewrite local_axis by auto. reflexivity.
  - rewrite qrotate_mul, angaxis_rodrigues by (auto using unitq_angaxis). reflexivity.
  - rewrite angaxis_rodrigues by auto. destruct (rodrigues (V 1 0 0) angle x); geo; veq; ring.
  - rewrite angaxis_rodrigues by auto. destruct (rodrigues (V 0 1 0) (if IsNED fc then - angle else angle) x); geo; veq; ring.
  - rewrite angaxis_rodrigues by auto. destruct (rodrigues (V 0 0 1) (if IsNED fc then - angle else angle) x); geo; veq; ring.
  - split; intro x.
    + unfold pmap at 1. unfold Frame_Inverse. rewrite pmap_inverse by auto. apply pmap_inv_l; auto.
    + unfold pmap at 2. unfold Frame_Inverse. rewrite pmap_inverse by auto. apply pmap_inv_r; auto.
Qed.

Fixpoint run_ops (l : list frame_op) (f : frame) : frame :=
  match l with nil => f | o :: l' => run_ops l' (frame_step o f) end.
Lemma run_means : forall l f, List.Forall op_ok l -> unitf f ->
  unitf (run_ops l f) /\ ops_mean l (pmap f) (pmap (run_ops l f)).
Proof.
  induction l as [|o l IH]; intros f Hl Hf; cbn [run_ops].
  - split; auto. constructor.
  - inversion Hl; subst. destruct (IH (frame_step o f)) as [A B]; auto using step_unit.
    split; auto. econstructor; eauto using step_means.
Qed.

(** *** rotation expressions *)
Lemma rexp_sound : forall e, rexp_ok e -> unitq (rexp_run e) /\ rexp_spec e (qrotate (rexp_run e)).
Proof.
  induction e; cbn [rexp_ok rexp_run]; intros H.
  - split; [apply unitq_one|]. constructor. intro; apply qrotate_one.
  - split; [apply unitq_swap; exact H|]. constructor. intro v. unfold UQ_SetElts.
    rewrite qrotate_swap, qrotate_action by exact H. reflexivity.
  - split; [unfold UQ_SetAxisAngle; rewrite swap_convert; auto using unitq_angaxis, unit3_convert|].
    constructor; intro v. unfold UQ_SetAxisAngle. rewrite swap_convert, angaxis_rodrigues by (auto using unit3_convert).
    apply convert_rodrigues.
  - rewrite setcardan_swap. split; [apply unitq_swap, unitq_cardan|].
    constructor; intro v. rewrite qrotate_swap, <- qrotate_mat, cardan_matrix. reflexivity.
  - destruct (A_quat_sound m H) as [A B]. split; [apply unitq_swap, A|].
    constructor; intro v. unfold UQ_SetMatrix. rewrite qrotate_swap, <- qrotate_mat, B. reflexivity.
  - destruct H as [H1 H2]. destruct (IHe1 H1), (IHe2 H2). split; [apply unitq_mul; auto|].
    econstructor; eauto. intro; apply qrotate_mul; auto.
  - destruct (IHe H). split; [apply unitq_conj; auto|].
    econstructor; eauto; intro v; [apply qrotate_conj_r|apply qrotate_conj_l]; auto.
  - destruct H as [H1 H2]. destruct (IHe H1).
    assert (U : unitq (UQ_SetAxisAngle u a fc))
      by (unfold UQ_SetAxisAngle; rewrite swap_convert; auto using unitq_angaxis, unit3_convert).
    split; [apply unitq_mul; auto|].
    econstructor; eauto. intro v. unfold Rot_RotAxisAngle, UQ_mul. rewrite qrotate_mul by auto.
    unfold UQ_SetAxisAngle. rewrite swap_convert, angaxis_rodrigues by (auto using unit3_convert).
    rewrite convert_rodrigues. reflexivity.
Qed.

(** *** ProjectToXYPlane *)
Lemma vnorm1 : forall v, vdot v v = 1 -> vnormalize v = v.
Proof.
  intros [x y z] H. unfold vnormalize. destruct (Rlt_dec 0 (vdot (V x y z) (V x y z))); auto.
  unfold vnorm. rewrite H, sqrt_1. geo; veq; field.
Qed.
Lemma vnorm_scaled : forall k x y z, 0 < k -> x * x + y * y + z * z = 1 ->
  vnormalize (V (k * x) (k * y) (k * z)) = V x y z.
Proof.
  intros k x y z Hk H. unfold vnormalize, vnorm.
  assert (E : vdot (V (k * x) (k * y) (k * z)) (V (k * x) (k * y) (k * z)) = k * k).
  { geo. replace (k * x * (k * x) + k * y * (k * y) + k * z * (k * z)) with (k * k * (x * x + y * y + z * z)) by ring. rewrite H; ring. }
  rewrite E. destruct (Rlt_dec 0 (k * k)); [|exfalso; nra].
  rewrite sqrt_square by lra. geo; veq; field; lra.
Qed.
Lemma IsClose_eq : forall tol a b, 0 <= tol -> a = b -> IsClose tol a b = true.
Proof.
  intros. subst. unfold IsClose. replace (b - b) with 0 by ring. rewrite Rabs_R0.
  destruct (Rle_dec 0 tol); auto; lra.
Qed.
Lemma Rz_rot : forall c s, c * c + s * s = 1 -> rotation_matrix (M c (- s) 0 s c 0 0 0 1).
Proof. intros. unfold rotation_matrix; geo; split; [|split]; [meq; lra | meq; lra | lra]. Qed.
Lemma SetAxes_ok : forall tol c s fc, 0 <= tol -> c * c + s * s = 1 ->
  Rot_SetAxes tol (V c s 0) (V (- s) c 0) (V 0 0 1) fc = Some (UQ_SetMatrix (M c (- s) 0 s c 0 0 0 1) fc).
Proof.
  intros. unfold Rot_SetAxes.
  rewrite !IsClose_eq; auto; unfold vnorm; geo; try ring;
   match goal with |- sqrt ?e = 1 => replace e with 1 by lra; apply sqrt_1 end.
Qed.
Definition heading_of (m : mat) (psi : R) : Prop := exists k, 0 < k /\ m00 m = k * cos psi /\ m10 m = k * sin psi.
Lemma project_ok : forall tol f fc, 0 <= tol -> unitf f ->
  0 < m22 (Set_A_quaternion (frot f)) ->
  m20 (Set_A_quaternion (frot f)) = 0 \/ m21 (Set_A_quaternion (frot f)) = 0 ->
  exists f' psi, ProjectToXYPlane tol f fc = Some f' /\ fpos f' = fpos f /\ unitf f' /\
    Set_A_quaternion (frot f') = Rz psi /\ heading_of (Set_A_quaternion (frot f)) psi.
Proof.
  intros tol [p q] fc Ht Hu Hz Hxy. unfold unitf in *. cbn [frot fpos] in *.
  unfold ProjectToXYPlane, UQ_GetXAxis, UQ_GetYAxis; cbn [frot fpos].
  assert (Hs : unitq (qswap_if fc q)) by (apply unitq_swap; auto).
  pose proof (rotmat_unit _ Hs) as HR.
  assert (E : Set_A_quaternion (qswap_if fc q) = convert_mat fc (Set_A_quaternion q)).
  { destruct q, fc; geo; meq; ring. }
  rewrite E in HR.
  assert (EX : qxaxis (qswap_if fc q) = V (m00 (Set_A_quaternion (qswap_if fc q))) (m10 (Set_A_quaternion (qswap_if fc q))) (m20 (Set_A_quaternion (qswap_if fc q)))) by reflexivity.
  assert (EY : qyaxis (qswap_if fc q) = V (m01 (Set_A_quaternion (qswap_if fc q))) (m11 (Set_A_quaternion (qswap_if fc q))) (m21 (Set_A_quaternion (qswap_if fc q)))) by reflexivity.
  rewrite EX, EY, E. clear EX EY E Hs. cbn [vx vy].
  (* the unit horizontal direction (c,s) in the working convention *)
  assert (K : exists c s k, 0 < k /\ c * c + s * s = 1 /\
     m00 (convert_mat fc (Set_A_quaternion q)) = k * c /\ m10 (convert_mat fc (Set_A_quaternion q)) = k * s /\
     vnormalize (V (m00 (convert_mat fc (Set_A_quaternion q))) (m10 (convert_mat fc (Set_A_quaternion q))) 0) = V c s 0 /\
     vnormalize (V (m01 (convert_mat fc (Set_A_quaternion q))) (m11 (convert_mat fc (Set_A_quaternion q))) 0) = V (- s) c 0).
  { assert (Hz' : 0 < m22 (convert_mat fc (Set_A_quaternion q))) by (destruct fc; exact Hz).
    assert (Hxy' : m20 (convert_mat fc (Set_A_quaternion q)) = 0 \/ m21 (convert_mat fc (Set_A_quaternion q)) = 0).
    { destruct fc; cbn [convert_mat m20 m21]; destruct Hxy as [K|K]; [left|right|left|right]; cbn [m20 m21] in *; lra. }
    clear - HR Hz' Hxy'. destruct (convert_mat fc (Set_A_quaternion q)) as [a b c d e f g h i].
    rotfacts HR. cbn [m22 m20 m21 m00 m10 m01 m11] in *.
    destruct Hxy' as [->| ->].
    - exists a, d, 1. assert (N : a * a + d * d = 1) by lra. assert (Eb : b = i * - d) by lra. assert (Ee : e = i * a) by lra.
      repeat split; try lra.
      + apply vnorm1. geo. lra.
      + rewrite Eb, Ee. transitivity (vnormalize (V (i * - d) (i * a) (i * 0))); [f_equal; f_equal; ring | apply vnorm_scaled; lra].
    - exists e, (- b), i. assert (N : b * b + e * e = 1) by lra. assert (Ea : a = i * e) by lra. assert (Ed : d = i * - b) by lra.
      repeat split; try lra.
      + rewrite Ea, Ed. transitivity (vnormalize (V (i * e) (i * - b) (i * 0))); [f_equal; f_equal; ring | apply vnorm_scaled; lra].
      + rewrite Ropp_involutive. apply vnorm1. geo. lra. }
  destruct K as (c & s & k & Hk & N & E0 & E1 & -> & ->).
  rewrite SetAxes_ok by auto.
  destruct (A_quat_sound _ (Rz_rot c s N)) as [Qu Qm].
  destruct (atan2_unit c s N) as [Ac As].
  exists (Frame_make (GetPosition {| fpos := p; frot := q |} fc) (UQ_SetMatrix (M c (- s) 0 s c 0 0 0 1) fc) fc).
  exists (if IsNED fc then - atan2 s c else atan2 s c).
  split; [reflexivity|]. unfold Frame_make, GetPosition, UQ_SetMatrix; cbn [fpos frot].
  split; [rewrite !swap_convert; apply convert_invol|]. split; [apply unitq_swap; auto|].
  split.
  - transitivity (convert_mat fc (M c (- s) 0 s c 0 0 0 1)).
    + assert (E : forall r, Set_A_quaternion (qswap_if fc r) = convert_mat fc (Set_A_quaternion r))
        by (intros []; destruct fc; geo; meq; ring).
      rewrite E, Qm. reflexivity.
    + unfold Rz; destruct fc; geo; rewrite ?cos_neg, ?sin_neg, ?Ac, ?As; meq; ring.
  - exists k. destruct fc; cbn [IsNED convert_mat m00 m10] in *; rewrite ?cos_neg, ?sin_neg, ?Ac, ?As; repeat split; auto; lra.
Qed.

(** *** torsors *)
Lemma transport_eq : forall r m p fc p' , TransportMomentAtPoint (Torsor_Set r m p fc) p' fc = moment_at r m p p'.
Proof. intros [] [] [] [] []; unfold TransportMomentAtPoint, Torsor_Set, moment_at; cbn [t_res t_mom t_pt]; geo; veq; ring. Qed.
