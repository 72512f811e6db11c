(** Specification vocabulary for the geometry properties (C11-C16): textbook vector algebra,
    rotation matrices and rigid motions.  Written without reference to the functions of GeoModel;
    only the data types (vec, mat, quat, conv, frame) are shared. *)
From Coq Require Import Reals List.
From Verif Require Import GeoModel.
Open Scope R_scope.

(** ** Vector algebra *)
Definition dot3 (a b : vec) : R := vx a * vx b + vy a * vy b + vz a * vz b.
Definition cross3 (a b : vec) : vec :=
  V (vy a * vz b - vz a * vy b) (vz a * vx b - vx a * vz b) (vx a * vy b - vy a * vx b).
Definition plus3 (a b : vec) : vec := V (vx a + vx b) (vy a + vy b) (vz a + vz b).
Definition minus3 (a b : vec) : vec := V (vx a - vx b) (vy a - vy b) (vz a - vz b).
Definition scal3 (k : R) (a : vec) : vec := V (k * vx a) (k * vy a) (k * vz a).
Definition origin : vec := V 0 0 0.
Definition dist3 (a b : vec) : R := sqrt (dot3 (minus3 a b) (minus3 a b)).
Definition unit3 (a : vec) : Prop := dot3 a a = 1.

(** Components in NWU (x north, y west, z up) of the vector whose components in the given
    convention are v (NED: x north, y east, z down). The same map converts back. *)
Definition convert (fc : conv) (v : vec) : vec :=
  match fc with NWU => v | NED => V (vx v) (- vy v) (- vz v) end.

(** ** Matrices *)
Definition mv (m : mat) (v : vec) : vec :=
  V (dot3 (V (m00 m) (m01 m) (m02 m)) v) (dot3 (V (m10 m) (m11 m) (m12 m)) v) (dot3 (V (m20 m) (m21 m) (m22 m)) v).
Definition mm (a b : mat) : mat :=
  let r0 := V (m00 a) (m01 a) (m02 a) in let r1 := V (m10 a) (m11 a) (m12 a) in let r2 := V (m20 a) (m21 a) (m22 a) in
  let c0 := V (m00 b) (m10 b) (m20 b) in let c1 := V (m01 b) (m11 b) (m21 b) in let c2 := V (m02 b) (m12 b) (m22 b) in
  M (dot3 r0 c0) (dot3 r0 c1) (dot3 r0 c2) (dot3 r1 c0) (dot3 r1 c1) (dot3 r1 c2) (dot3 r2 c0) (dot3 r2 c1) (dot3 r2 c2).
Definition mt (m : mat) : mat := M (m00 m) (m10 m) (m20 m) (m01 m) (m11 m) (m21 m) (m02 m) (m12 m) (m22 m).
Definition mid : mat := M 1 0 0 0 1 0 0 0 1.
Definition mdet (m : mat) : R :=
  dot3 (V (m00 m) (m01 m) (m02 m)) (cross3 (V (m10 m) (m11 m) (m12 m)) (V (m20 m) (m21 m) (m22 m))).
(** Rotation matrices: orthogonal with determinant one. *)
Definition rotation_matrix (m : mat) : Prop := mm (mt m) m = mid /\ mm m (mt m) = mid /\ mdet m = 1.
(** Elementary rotations *)
Definition Rx (a : R) : mat := M 1 0 0  0 (cos a) (- sin a)  0 (sin a) (cos a).
Definition Ry (a : R) : mat := M (cos a) 0 (sin a)  0 1 0  (- sin a) 0 (cos a).
Definition Rz (a : R) : mat := M (cos a) (- sin a) 0  (sin a) (cos a) 0  0 0 1.
(** Rodrigues' formula: rotation of v by the angle a around the unit vector u *)
Definition rodrigues (u : vec) (a : R) (v : vec) : vec :=
  plus3 (plus3 (scal3 (cos a) v) (scal3 (sin a) (cross3 u v))) (scal3 ((1 - cos a) * dot3 u v) u).
(** Change of convention of a matrix *)
Definition convert_mat (fc : conv) (m : mat) : mat :=
  match fc with
  | NWU => m
  | NED => M (m00 m) (- m01 m) (- m02 m) (- m10 m) (m11 m) (m12 m) (- m20 m) (m21 m) (m22 m)
  end.

(** ** Quaternions *)
Definition unitq (q : quat) : Prop := q0 q * q0 q + q1 q * q1 q + q2 q * q2 q + q3 q * q3 q = 1.
(** Rotation of a vector by a quaternion (s,u): v + 2 s (u x v) + 2 u x (u x v) *)
Definition quat_action (q : quat) (v : vec) : vec :=
  let u := V (q1 q) (q2 q) (q3 q) in
  plus3 (plus3 v (scal3 (2 * q0 q) (cross3 u v))) (scal3 2 (cross3 u (cross3 u v))).

(** ** Rigid motions of space, as maps from local coordinates to parent coordinates (NWU) *)
Definition motion := vec -> vec.
Definition rigid (g : motion) : Prop := forall a b, dist3 (g a) (g b) = dist3 a b.

(** Meaning of each in-place frame operation on the motion g, giving the motion g'. *)
Definition op_means (o : frame_op) (g g' : motion) : Prop :=
  let o0 := g origin in
  let about (r : vec -> vec) := forall x, g' x = plus3 o0 (r (minus3 (g x) o0)) in   (* in parent axes *)
  let inside (r : vec -> vec) := forall x, g' x = g (r x) in                          (* in own axes *)
  match o with
  | OSetPosition p fc => forall x, g' x = plus3 (convert fc p) (minus3 (g x) o0)
  | OSetRotation q => forall x, g' x = plus3 o0 (quat_action q x)
  | OSetNoRotation => forall x, g' x = plus3 o0 x
  | OSetNoTranslation => forall x, g' x = minus3 (g x) o0
  | OSetIdentity => forall x, g' x = x
  | OTranslateInParent t fc => forall x, g' x = plus3 (g x) (convert fc t)
  | OTranslateInFrame t fc => forall x, g' x = g (plus3 x (convert fc t))
  | ORotateInFrame q => inside (quat_action q)
  | ORotateInFrameAA u a fc => inside (rodrigues (convert fc u) a)
  | ORotateInParent q => about (quat_action q)
  | ORotateInParentAA u a fc => about (rodrigues (convert fc u) a)
  | ORotX a fc loc => let r := mv (convert_mat fc (Rx a)) in if loc then inside r else about r
  | ORotY a fc loc => let r := mv (convert_mat fc (Ry a)) in if loc then inside r else about r
  | ORotZ a fc loc => let r := mv (convert_mat fc (Rz a)) in if loc then inside r else about r
  | OSetRotX a fc => forall x, g' x = mv (convert_mat fc (Rx a)) x
  | OSetRotY a fc => forall x, g' x = mv (convert_mat fc (Ry a)) x
  | OSetRotZ a fc => forall x, g' x = mv (convert_mat fc (Rz a)) x
  | OInverse => (forall x, g' (g x) = x) /\ (forall x, g (g' x) = x)
  end.
(** Arguments the API accepts: unit quaternions and unit axes. *)
Definition op_ok (o : frame_op) : Prop :=
  match o with
  | OSetRotation q | ORotateInFrame q | ORotateInParent q => unitq q
  | ORotateInFrameAA u _ _ | ORotateInParentAA u _ _ => unit3 u
  | _ => True
  end.
(** Meaning of a sequence of operations *)
Inductive ops_mean : list frame_op -> motion -> motion -> Prop :=
| om_nil : forall g, ops_mean nil g g
| om_cons : forall o l g g1 g2, op_means o g g1 -> ops_mean l g1 g2 -> ops_mean (o :: l) g g2.

(** ** Rotation expressions: how a user builds a rotation through the API *)
Inductive rexp :=
| RNull
| RQuat (a b c d : R) (fc : conv)            (* unit quaternion elements *)
| RAxis (u : vec) (a : R) (fc : conv)        (* unit axis, angle *)
| RCardan (phi theta psi : R) (fc : conv)
| RMatrix (m : mat) (fc : conv)              (* rotation matrix *)
| RMul (a b : rexp)
| RInv (a : rexp)
| RThenAxis (e : rexp) (u : vec) (a : R) (fc : conv).   (* RotAxisAngle: in the rotated axes *)
Fixpoint rexp_ok (e : rexp) : Prop :=
  match e with
  | RNull | RCardan _ _ _ _ => True
  | RQuat a b c d _ => unitq (Q a b c d)
  | RAxis u _ _ => unit3 u
  | RMatrix m _ => rotation_matrix m
  | RMul a b => rexp_ok a /\ rexp_ok b
  | RInv a => rexp_ok a
  | RThenAxis e u _ _ => rexp_ok e /\ unit3 u
  end.
(** Textbook meaning of an expression as a map on NWU components *)
Inductive rexp_spec : rexp -> (vec -> vec) -> Prop :=
| rs_inv : forall a f g, rexp_spec a f -> (forall v, f (g v) = v) -> (forall v, g (f v) = v) -> rexp_spec (RInv a) g
| rs_mul : forall a b f g h, rexp_spec a f -> rexp_spec b g -> (forall v, h v = f (g v)) -> rexp_spec (RMul a b) h
| rs_then : forall e f u a fc h, rexp_spec e f ->
    (forall v, h v = f (convert fc (rodrigues u a (convert fc v)))) -> rexp_spec (RThenAxis e u a fc) h
| rs_null : forall h, (forall v, h v = v) -> rexp_spec RNull h
| rs_quat : forall a b c d fc h, (forall v, h v = convert fc (quat_action (Q a b c d) (convert fc v))) ->
    rexp_spec (RQuat a b c d fc) h
| rs_axis : forall u a fc h, (forall v, h v = convert fc (rodrigues u a (convert fc v))) -> rexp_spec (RAxis u a fc) h
| rs_cardan : forall p t s fc h,
    (forall v, h v = convert fc (mv (mm (Rz s) (mm (Ry t) (Rx p))) (convert fc v))) -> rexp_spec (RCardan p t s fc) h
| rs_matrix : forall m fc h, (forall v, h v = convert fc (mv m (convert fc v))) -> rexp_spec (RMatrix m fc) h.
(** Torsor vocabulary: moment at Q of a torsor of resultant r and moment m at P *)
Definition moment_at (r m P Q : vec) : vec := plus3 m (cross3 (minus3 P Q) r).

(** The API calls performed for a rotation expression. *)
Fixpoint rexp_run (e : rexp) : quat :=
  match e with
  | RNull => qone
  | RQuat a b c d fc => UQ_SetElts a b c d false fc
  | RAxis u a fc => UQ_SetAxisAngle u a fc
  | RCardan p t s fc => Rot_SetCardan_RADIANS p t s fc
  | RMatrix m fc => UQ_SetMatrix m fc
  | RMul a b => UQ_mul (rexp_run a) (rexp_run b)
  | RInv a => UQ_Inverse (rexp_run a)
  | RThenAxis e u a fc => Rot_RotAxisAngle (rexp_run e) u a fc
  end.
