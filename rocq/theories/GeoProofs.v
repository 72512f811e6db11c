(** Proofs for the geometry classes: vectors, quaternions, rotations. *)
From Coq Require Import Reals List Lra Psatz Lia.
From Verif Require Import GeoModel GeoSpec.
Open Scope R_scope.

Lemma vec_eq : forall a b : vec, vx a = vx b -> vy a = vy b -> vz a = vz b -> a = b.
Proof. intros [] []; simpl; intros; subst; reflexivity. Qed.
Lemma quat_eq : forall a b : quat, q0 a = q0 b -> q1 a = q1 b -> q2 a = q2 b -> q3 a = q3 b -> a = b.
Proof. intros [] []; simpl; intros; subst; reflexivity. Qed.
Lemma mat_eq : forall a b : mat,
  m00 a = m00 b -> m01 a = m01 b -> m02 a = m02 b -> m10 a = m10 b -> m11 a = m11 b -> m12 a = m12 b ->
  m20 a = m20 b -> m21 a = m21 b -> m22 a = m22 b -> a = b.
Proof. intros [] []; simpl; intros; subst; reflexivity. Qed.

Ltac geo := cbv beta iota zeta delta [UQ_Rotate UQ_Inverse UQ_mul UQ_GetElts UQ_GetXAxis UQ_GetYAxis UQ_GetZAxis
   UQ_GetRotationMatrix swap_if qswap_if SwapQuat SwapFrameConvention IsNED
   qrotate qmul qconj qone qxaxis qyaxis qzaxis Set_A_quaternion Q_from_AngAxis
   quat_action plus3 minus3 scal3 cross3 dot3 origin mv mm mt mid mdet convert convert_mat
   vadd vsub vneg vscale vzero vdot vcross qnorm2
   vx vy vz q0 q1 q2 q3 m00 m01 m02 m10 m11 m12 m20 m21 m22 fpos frot] in *.
Ltac veq := apply vec_eq; cbn [vx vy vz].
Ltac qeq := apply quat_eq; cbn [q0 q1 q2 q3].
Ltac meq := apply mat_eq; cbn [m00 m01 m02 m10 m11 m12 m20 m21 m22].

Lemma unitq_elim : forall q, unitq q -> q0 q * q0 q = 1 - q1 q * q1 q - q2 q * q2 q - q3 q * q3 q.
Proof. unfold unitq; intros; lra. Qed.

(** *** swap *)
Lemma swap_convert : forall fc v, swap_if fc v = convert fc v.
Proof. intros [] []; reflexivity. Qed.
Lemma convert_invol : forall fc v, convert fc (convert fc v) = v.
Proof. intros [] []; unfold convert; veq; ring. Qed.
Lemma convert_dot : forall fc a b, dot3 (convert fc a) (convert fc b) = dot3 a b.
Proof. intros [] [] []; geo; ring. Qed.
Lemma convert_cross : forall fc a b, cross3 (convert fc a) (convert fc b) = convert fc (cross3 a b).
Proof. intros [] [] []; geo; veq; ring. Qed.
Lemma convert_plus : forall fc a b, convert fc (plus3 a b) = plus3 (convert fc a) (convert fc b).
Proof. intros [] [] []; geo; veq; ring. Qed.
Lemma convert_minus : forall fc a b, convert fc (minus3 a b) = minus3 (convert fc a) (convert fc b).
Proof. intros [] [] []; geo; veq; ring. Qed.
Lemma convert_scal : forall fc k b, convert fc (scal3 k b) = scal3 k (convert fc b).
Proof. intros [] ? []; geo; veq; ring. Qed.
Lemma convert_inj : forall fc a b, convert fc a = convert fc b -> a = b.
Proof. intros fc a b H. rewrite <- (convert_invol fc a), H. apply convert_invol. Qed.
Lemma convert_mat_mv : forall fc m v, mv (convert_mat fc m) v = convert fc (mv m (convert fc v)).
Proof. intros [] [] []; geo; veq; ring. Qed.
Lemma convert_rodrigues : forall fc u a v, rodrigues (convert fc u) a v = convert fc (rodrigues u a (convert fc v)).
Proof. intros [] [] ? []; unfold rodrigues; geo; veq; ring. Qed.

(** *** quaternion action *)
Lemma qrotate_action : forall q v, unitq q -> qrotate q v = quat_action q v.
Proof. intros [] [] H; apply unitq_elim in H; geo; veq; ring [H]. Qed.
Lemma qrotate_dot : forall q a b, unitq q -> dot3 (qrotate q a) (qrotate q b) = dot3 a b.
Proof. intros [] [] [] H; apply unitq_elim in H; geo; ring [H]. Qed.
Lemma qrotate_cross : forall q a b, unitq q -> cross3 (qrotate q a) (qrotate q b) = qrotate q (cross3 a b).
Proof. intros [] [] [] H; apply unitq_elim in H; geo; veq; ring [H]. Qed.
Lemma qrotate_mul : forall p q v, unitq p -> unitq q -> qrotate (qmul p q) v = qrotate p (qrotate q v).
Proof.
  intros [a0 a1 a2 a3] [b0 b1 b2 b3] [] H K; apply unitq_elim in H; apply unitq_elim in K; geo; veq; ring [H K].
Qed.
Lemma qrotate_conj_l : forall q v, unitq q -> qrotate (qconj q) (qrotate q v) = v.
Proof. intros [] [] H; apply unitq_elim in H; geo; veq; ring [H]. Qed.
Lemma qrotate_conj_r : forall q v, unitq q -> qrotate q (qrotate (qconj q) v) = v.
Proof. intros [] [] H; apply unitq_elim in H; geo; veq; ring [H]. Qed.
Lemma qrotate_plus : forall q a b, qrotate q (vadd a b) = vadd (qrotate q a) (qrotate q b).
Proof. intros [] [] []; geo; veq; ring. Qed.
Lemma qrotate_minus : forall q a b, qrotate q (minus3 a b) = minus3 (qrotate q a) (qrotate q b).
Proof. intros [] [] []; geo; veq; ring. Qed.
Lemma qrotate_one : forall v, qrotate qone v = v.
Proof. intros []; geo; veq; ring. Qed.
Lemma qrotate_swap : forall q v fc, qrotate (qswap_if fc q) v = convert fc (qrotate q (convert fc v)).
Proof. intros [] [] []; geo; veq; ring. Qed.
Lemma qrotate_mat : forall q v, mv (Set_A_quaternion q) v = qrotate q v.
Proof. intros [] []; geo; veq; ring. Qed.

Lemma unitq_mul : forall p q, unitq p -> unitq q -> unitq (qmul p q).
Proof.
  intros [a0 a1 a2 a3] [b0 b1 b2 b3] H K; apply unitq_elim in H; apply unitq_elim in K; unfold unitq; geo; ring [H K].
Qed.
Lemma unitq_conj : forall q, unitq q -> unitq (qconj q).
Proof. intros [] H; unfold unitq in *; geo; lra. Qed.
Lemma unitq_one : unitq qone.
Proof. unfold unitq; geo; ring. Qed.
Lemma unitq_swap : forall fc q, unitq q -> unitq (qswap_if fc q).
Proof. intros [] [] H; unfold unitq in *; geo; lra. Qed.
Lemma sc : forall x, sin x * sin x = 1 - cos x * cos x.
Proof. intros; generalize (sin2_cos2 x); unfold Rsqr; lra. Qed.
Lemma unitq_angaxis : forall u a, unit3 u -> unitq (Q_from_AngAxis a u).
Proof.
  intros [x y z] a H. unfold unit3, unitq in *; geo.
  assert (K : z * z = 1 - x * x - y * y) by lra.
  ring [K (sc (a/2))].
Qed.
Lemma unit3_convert : forall fc u, unit3 u -> unit3 (convert fc u).
Proof. intros; unfold unit3; rewrite convert_dot; auto. Qed.

Lemma qmul_assoc : forall a b c, qmul (qmul a b) c = qmul a (qmul b c).
Proof. intros [] [] []; geo; qeq; ring. Qed.
Lemma qmul_1l : forall a, qmul qone a = a.
Proof. intros []; geo; qeq; ring. Qed.
Lemma qmul_1r : forall a, qmul a qone = a.
Proof. intros []; geo; qeq; ring. Qed.
Lemma qmul_conj_r : forall a, unitq a -> qmul a (qconj a) = qone.
Proof. intros [] H; unfold unitq in H; geo; qeq; lra. Qed.
Lemma qmul_conj_l : forall a, unitq a -> qmul (qconj a) a = qone.
Proof. intros [] H; unfold unitq in H; geo; qeq; lra. Qed.
Lemma qconj_invol : forall a, qconj (qconj a) = a.
Proof. intros []; geo; qeq; ring. Qed.

(** *** axis angle *)
Lemma half_cos : forall a, cos a = 2 * cos (a / 2) * cos (a / 2) - 1.
Proof. intros; replace a with (2 * (a / 2)) at 1 by field. rewrite cos_2a_cos; ring. Qed.
Lemma half_sin : forall a, sin a = 2 * sin (a / 2) * cos (a / 2).
Proof. intros; replace a with (2 * (a / 2)) at 1 by field. apply sin_2a. Qed.
Lemma angaxis_rodrigues : forall u a v, unit3 u -> qrotate (Q_from_AngAxis a u) v = rodrigues u a v.
Proof.
  intros [x y z] a [p q r] H. unfold unit3, rodrigues in *; geo.
  rewrite (half_cos a), (half_sin a).
  assert (K : x * x = 1 - y * y - z * z) by lra.
  set (c := cos (a/2)). set (s := sin (a/2)).
  assert (E : s * s = 1 - c * c) by (unfold s, c; apply sc).
  veq; ring [K E].
Qed.

(** *** Cardan *)
Lemma half_cos' : forall a, cos a = 2 * cos (a * / 2) * cos (a * / 2) - 1.
Proof. exact half_cos. Qed.
Lemma half_sin' : forall a, sin a = 2 * sin (a * / 2) * cos (a * / 2).
Proof. exact half_sin. Qed.
Lemma cardan_matrix : forall p t s, Set_A_quaternion (euler_to_quat p t s) = mm (Rz s) (mm (Ry t) (Rx p)).
Proof.
  intros. unfold euler_to_quat, Rx, Ry, Rz; geo.
  rewrite (half_cos' p), (half_sin' p), (half_cos' t), (half_sin' t), (half_cos' s), (half_sin' s).
  generalize (sc (p * / 2)), (sc (t * / 2)), (sc (s * / 2)).
  generalize (cos (p * / 2)) (sin (p * / 2)) (cos (t * / 2)) (sin (t * / 2)) (cos (s * / 2)) (sin (s * / 2)).
  intros c1 s1 c2 s2 c3 s3 E1 E2 E3.
  meq; ring [E1 E2 E3].
Qed.
Lemma unitq_cardan : forall p t s, unitq (euler_to_quat p t s).
Proof.
  intros. unfold euler_to_quat, unitq; geo.
  generalize (sc (p * / 2)), (sc (t * / 2)), (sc (s * / 2)).
  generalize (cos (p * / 2)) (sin (p * / 2)) (cos (t * / 2)) (sin (t * / 2)) (cos (s * / 2)) (sin (s * / 2)).
  intros c1 s1 c2 s2 c3 s3 E1 E2 E3.
  ring [E1 E2 E3].
Qed.
Lemma cardan_swap : forall p t s, euler_to_quat p (- t) (- s) = SwapQuat (euler_to_quat p t s).
Proof.
  intros. unfold euler_to_quat, SwapQuat.
  replace (- t * / 2) with (- (t * / 2)) by ring. replace (- s * / 2) with (- (s * / 2)) by ring.
  rewrite !cos_neg, !sin_neg. qeq; ring.
Qed.
Lemma setcardan_swap : forall p t s fc, Rot_SetCardan_RADIANS p t s fc = qswap_if fc (euler_to_quat p t s).
Proof. intros p t s []; unfold Rot_SetCardan_RADIANS; cbn [IsNED]; [reflexivity | apply cardan_swap]. Qed.

Lemma rotmat_unit : forall q, unitq q -> rotation_matrix (Set_A_quaternion q).
Proof.
  intros [] H; apply unitq_elim in H; unfold rotation_matrix; geo; split; [|split]; [meq; ring [H] | meq; ring [H] | ring [H]].
Qed.
