(** Model of the geometry classes of FRyDoM: vectors and frame conventions
    (core/math/FrVector.h), rotations (core/common/FrRotation.{h,cpp}, core/math/FrEulerAngles.inl),
    frames (core/common/FrFrame.{h,cpp}) and torsors (core/math/Torsor.cpp).
    Paths are relative to /repo/src/frydom.  [double] is modelled by [R].
    The Chrono classes ChVector, ChQuaternion, ChMatrix33, ChFrame are third-party code that is
    not in /repo: their documented behaviour is written out below in the section "Chrono" and is
    part of the trusted base.  No proofs in this file. *)
From Coq Require Import Reals List.
Open Scope R_scope.

(** ** Vectors *)
Record vec := V { vx : R; vy : R; vz : R }.
Definition vadd (a b : vec) := V (vx a + vx b) (vy a + vy b) (vz a + vz b).
Definition vsub (a b : vec) := V (vx a - vx b) (vy a - vy b) (vz a - vz b).
Definition vscale (k : R) (a : vec) := V (k * vx a) (k * vy a) (k * vz a).
Definition vneg (a : vec) := V (- vx a) (- vy a) (- vz a).
Definition vzero := V 0 0 0.
(** Eigen dot / cross / norm *)
Definition vdot (a b : vec) : R := vx a * vx b + vy a * vy b + vz a * vz b.
Definition vcross (a b : vec) : vec :=
  V (vy a * vz b - vz a * vy b) (vz a * vx b - vx a * vz b) (vx a * vy b - vy a * vx b).
Definition vnorm (a : vec) : R := sqrt (vdot a a).
(** Eigen normalize(): divides by the norm when the squared norm is positive. *)
Definition vnormalize (a : vec) : vec :=
  if Rlt_dec 0 (vdot a a) then vscale (/ vnorm a) a else a.

(** core/common/FrConvention.h: FRAME_CONVENTION, IsNED *)
Inductive conv := NWU | NED.
Definition IsNED (fc : conv) : bool := match fc with NED => true | NWU => false end.

(** internal::SwapFrameConvention, FrVector.h 701-713; SwapCoordinateConvention 726-729 *)
Definition SwapFrameConvention (v : vec) : vec := V (vx v) (- vy v) (- vz v).
(** The idiom "if (IsNED(fc)) SwapFrameConvention(v)" *)
Definition swap_if (fc : conv) (v : vec) : vec := if IsNED fc then SwapFrameConvention v else v.

(** ** Matrices *)
Record mat := M { m00 : R; m01 : R; m02 : R; m10 : R; m11 : R; m12 : R; m20 : R; m21 : R; m22 : R }.
Definition mapply (m : mat) (v : vec) : vec :=
  V (m00 m * vx v + m01 m * vy v + m02 m * vz v)
    (m10 m * vx v + m11 m * vy v + m12 m * vz v)
    (m20 m * vx v + m21 m * vy v + m22 m * vz v).
Definition mmul (a b : mat) : mat :=
  M (m00 a * m00 b + m01 a * m10 b + m02 a * m20 b)
    (m00 a * m01 b + m01 a * m11 b + m02 a * m21 b)
    (m00 a * m02 b + m01 a * m12 b + m02 a * m22 b)
    (m10 a * m00 b + m11 a * m10 b + m12 a * m20 b)
    (m10 a * m01 b + m11 a * m11 b + m12 a * m21 b)
    (m10 a * m02 b + m11 a * m12 b + m12 a * m22 b)
    (m20 a * m00 b + m21 a * m10 b + m22 a * m20 b)
    (m20 a * m01 b + m21 a * m11 b + m22 a * m21 b)
    (m20 a * m02 b + m21 a * m12 b + m22 a * m22 b).

(** ** Chrono (third party, trusted) *)
Record quat := Q { q0 : R; q1 : R; q2 : R; q3 : R }.
(** ChQuaternion operator* (Hamilton product) *)
Definition qmul (a b : quat) : quat :=
  Q (q0 a * q0 b - q1 a * q1 b - q2 a * q2 b - q3 a * q3 b)
    (q0 a * q1 b + q1 a * q0 b - q3 a * q2 b + q2 a * q3 b)
    (q0 a * q2 b + q2 a * q0 b + q3 a * q1 b - q1 a * q3 b)
    (q0 a * q3 b + q3 a * q0 b - q2 a * q1 b + q1 a * q2 b).
(** ChQuaternion::Conjugate *)
Definition qconj (a : quat) : quat := Q (q0 a) (- q1 a) (- q2 a) (- q3 a).
Definition qone : quat := Q 1 0 0 0.
Definition qnorm2 (a : quat) : R := q0 a * q0 a + q1 a * q1 a + q2 a * q2 a + q3 a * q3 a.
(** ChQuaternion::Length, ::Normalize *)
Definition qlen (a : quat) : R := sqrt (qnorm2 a).
Definition qnormalize (a : quat) : quat :=
  Q (q0 a / qlen a) (q1 a / qlen a) (q2 a / qlen a) (q3 a / qlen a).
(** ChQuaternion::Rotate *)
Definition qrotate (q : quat) (v : vec) : vec :=
  let e0 := q0 q in let e1 := q1 q in let e2 := q2 q in let e3 := q3 q in
  V (((e0 * e0 + e1 * e1) * 2 - 1) * vx v + ((e1 * e2 - e0 * e3) * 2) * vy v + ((e1 * e3 + e0 * e2) * 2) * vz v)
    (((e1 * e2 + e0 * e3) * 2) * vx v + ((e0 * e0 + e2 * e2) * 2 - 1) * vy v + ((e2 * e3 - e0 * e1) * 2) * vz v)
    (((e1 * e3 - e0 * e2) * 2) * vx v + ((e2 * e3 + e0 * e1) * 2) * vy v + ((e0 * e0 + e3 * e3) * 2 - 1) * vz v).
(** ChMatrix33::Set_A_quaternion *)
Definition Set_A_quaternion (q : quat) : mat :=
  let e0 := q0 q in let e1 := q1 q in let e2 := q2 q in let e3 := q3 q in
  M ((e0 * e0 + e1 * e1) * 2 - 1) ((e1 * e2 - e0 * e3) * 2) ((e1 * e3 + e0 * e2) * 2)
    ((e1 * e2 + e0 * e3) * 2) ((e0 * e0 + e2 * e2) * 2 - 1) ((e2 * e3 - e0 * e1) * 2)
    ((e1 * e3 - e0 * e2) * 2) ((e2 * e3 + e0 * e1) * 2) ((e0 * e0 + e3 * e3) * 2 - 1).
(** ChQuaternion::GetXaxis, GetYaxis, GetZaxis *)
Definition qxaxis (q : quat) : vec :=
  V ((q0 q * q0 q + q1 q * q1 q) * 2 - 1) ((q1 q * q2 q + q0 q * q3 q) * 2) ((q1 q * q3 q - q0 q * q2 q) * 2).
Definition qyaxis (q : quat) : vec :=
  V ((q1 q * q2 q - q0 q * q3 q) * 2) ((q0 q * q0 q + q2 q * q2 q) * 2 - 1) ((q2 q * q3 q + q0 q * q1 q) * 2).
Definition qzaxis (q : quat) : vec :=
  V ((q1 q * q3 q + q0 q * q2 q) * 2) ((q2 q * q3 q - q0 q * q1 q) * 2) ((q0 q * q0 q + q3 q * q3 q) * 2 - 1).
(** chrono::Q_from_AngAxis *)
Definition Q_from_AngAxis (angle : R) (axis : vec) : quat :=
  let s := sin (angle / 2) in Q (cos (angle / 2)) (vx axis * s) (vy axis * s) (vz axis * s).
(** ChMatrix33::Get_A_quaternion: trace test, then largest diagonal element. *)
Definition Get_A_quaternion (m : mat) : quat :=
  let tr := m00 m + m11 m + m22 m in
  if Rle_dec 0 tr then
    let s := sqrt (tr + 1) in let k := / 2 / s in
    Q (/ 2 * s) ((m21 m - m12 m) * k) ((m02 m - m20 m) * k) ((m10 m - m01 m) * k)
  else
    let i := if Rlt_dec (m00 m) (m11 m) then (if Rlt_dec (m11 m) (m22 m) then 2%nat else 1%nat)
             else (if Rlt_dec (m00 m) (m22 m) then 2%nat else 0%nat) in
    match i with
    | O => let s := sqrt (m00 m - m11 m - m22 m + 1) in let k := / 2 / s in
           Q ((m21 m - m12 m) * k) (/ 2 * s) ((m01 m + m10 m) * k) ((m20 m + m02 m) * k)
    | S O => let s := sqrt (m11 m - m22 m - m00 m + 1) in let k := / 2 / s in
             Q ((m02 m - m20 m) * k) ((m01 m + m10 m) * k) (/ 2 * s) ((m12 m + m21 m) * k)
    | _ => let s := sqrt (m22 m - m00 m - m11 m + 1) in let k := / 2 / s in
           Q ((m10 m - m01 m) * k) ((m20 m + m02 m) * k) ((m12 m + m21 m) * k) (/ 2 * s)
    end.

(** ChFrame<double>: position and rotation *)
Record frame := Fr { fpos : vec; frot : quat }.
Definition fident : frame := Fr vzero qone.
(** ChFrame operator*: position of the right frame transformed by the left one *)
Definition chmul (a b : frame) : frame := Fr (vadd (fpos a) (qrotate (frot a) (fpos b))) (qmul (frot a) (frot b)).
(** ChFrame operator>>= : A >>= T means A' = T*A *)
Definition chrshift_assign (a t : frame) : frame := chmul t a.
(** ChFrame::Invert / GetInverse *)
Definition chinv (a : frame) : frame :=
  Fr (vneg (qrotate (qconj (frot a)) (fpos a))) (qconj (frot a)).

(** ** FrUnitQuaternion (common/FrRotation.cpp, FrRotation.h) *)

(** SwapQuaternionElementsFrameConvention / SwapChQuaternionFrameConvention, FrRotation.h 639-655 *)
Definition SwapQuat (q : quat) : quat := Q (q0 q) (q1 q) (- q2 q) (- q3 q).
Definition qswap_if (fc : conv) (q : quat) : quat := if IsNED fc then SwapQuat q else q.

(** Set(q0,q1,q2,q3,non_normalized,fc), FrRotation.cpp 48-57.  The assertion IsRotation() of the
    normalised case is the hypothesis [unitq] of the theorems. *)
Definition UQ_SetElts (a b c d : R) (non_normalized : bool) (fc : conv) : quat :=
  let q := qswap_if fc (Q a b c d) in if non_normalized then qnormalize q else q.
(** Set(axis, angleRAD, fc), 64-70 *)
Definition UQ_SetAxisAngle (axis : vec) (angle : R) (fc : conv) : quat :=
  Q_from_AngAxis angle (swap_if fc axis).
(** Set(matrix, fc), 72-77 *)
Definition UQ_SetMatrix (m : mat) (fc : conv) : quat := qswap_if fc (Get_A_quaternion m).
(** Get(q0,q1,q2,q3,fc), 96-104 *)
Definition UQ_GetElts (q : quat) (fc : conv) : quat := qswap_if fc q.
(** GetXAxis, GetYAxis, GetZAxis, 113-132 *)
Definition UQ_GetXAxis (q : quat) (fc : conv) : vec := qxaxis (qswap_if fc q).
Definition UQ_GetYAxis (q : quat) (fc : conv) : vec := qyaxis (qswap_if fc q).
Definition UQ_GetZAxis (q : quat) (fc : conv) : vec := qzaxis (qswap_if fc q).
(** operator*, operator*=, 139-151 *)
Definition UQ_mul (a b : quat) : quat := qmul a b.
(** Inverse, GetInverse, 171-180 *)
Definition UQ_Inverse (a : quat) : quat := qconj a.
(** GetRotationMatrix 198-202; GetInverseRotationMatrix 204-208 (ChQuaternion::GetInverse is the
    conjugate divided by the squared length). *)
Definition UQ_GetRotationMatrix (q : quat) : mat := Set_A_quaternion q.
Definition qinverse (q : quat) : quat :=
  let n := qnorm2 q in Q (q0 q / n) (- q1 q / n) (- q2 q / n) (- q3 q / n).
Definition UQ_GetInverseRotationMatrix (q : quat) : mat := Set_A_quaternion (qinverse q).
(** Rotate(vector, fc), FrRotation.h 199-213 *)
Definition UQ_Rotate (q : quat) (v : vec) (fc : conv) : vec :=
  swap_if fc (qrotate q (swap_if fc v)).

(** ** Cardan angles (math/FrEulerAngles.inl) *)

(** C atan2 (signed zeros not modelled) *)
Definition atan2 (y x : R) : R :=
  if Rlt_dec 0 x then atan (y / x)
  else if Rlt_dec x 0 then (if Rle_dec 0 y then atan (y / x) + PI else atan (y / x) - PI)
  else if Rlt_dec 0 y then PI / 2 else if Rlt_dec y 0 then - (PI / 2) else 0.

(** eul2quat_xyz 286-296, called by euler_to_quat 212-277 on the half angles (CARDAN and XYZ) *)
Definition euler_to_quat (phi theta psi : R) : quat :=
  let cphi := cos (phi * / 2) in let sphi := sin (phi * / 2) in
  let cth := cos (theta * / 2) in let sth := sin (theta * / 2) in
  let cpsi := cos (psi * / 2) in let spsi := sin (psi * / 2) in
  Q (cphi * cth * cpsi + sphi * sth * spsi)
    (- cphi * sth * spsi + cth * cpsi * sphi)
    (cphi * cpsi * sth + sphi * cth * spsi)
    (cphi * cth * spsi - sphi * cpsi * sth).

(** Angles returned by mat2eul_xyz; [None] for phi: the local variable is read uninitialised. *)
Record angles := Angles { a_phi : option R; a_theta : R; a_psi : R }.
(** mat2eul_xyz 363-390 *)
Definition mat2eul_xyz (m : mat) : angles :=
  if Rlt_dec (m20 m) 1 then
    if Rlt_dec (-1) (m20 m) then
      Angles (Some (atan2 (m21 m) (m22 m))) (asin (- m20 m)) (atan2 (m10 m) (m00 m))
    else Angles (Some 0) (PI / 2) (- atan2 (- m12 m) (m11 m))
  else Angles None (- (PI / 2)) 0.

(** SetEulerAngles_RADIANS, FrRotation.cpp 327-339 (SetCardanAngles_RADIANS 346-348) *)
Definition Rot_SetCardan_RADIANS (phi theta psi : R) (fc : conv) : quat :=
  if IsNED fc then euler_to_quat phi (- theta) (- psi) else euler_to_quat phi theta psi.
(** DEG2RAD *)
Definition DEG2RAD : R := PI / 180.
(** SetEulerAngles_DEGREES 341-344 *)
Definition Rot_SetCardan_DEGREES (phi theta psi : R) (fc : conv) : quat :=
  Rot_SetCardan_RADIANS (phi * DEG2RAD) (theta * DEG2RAD) (psi * DEG2RAD) fc.
(** GetEulerAngles_RADIANS 354-369 (GetCardanAngles_RADIANS 379-381) *)
Definition Rot_GetCardan_RADIANS (q : quat) (fc : conv) : angles :=
  let a := mat2eul_xyz (Set_A_quaternion q) in
  if IsNED fc then Angles (a_phi a) (- a_theta a) (- a_psi a) else a.

(** RotAxisAngle_RADIANS, RotX/Y/Z_RADIANS of FrRotation, 429-460: right composition *)
Definition Rot_RotAxisAngle (q : quat) (axis : vec) (angle : R) (fc : conv) : quat :=
  UQ_mul q (UQ_SetAxisAngle axis angle fc).

(** Set(xaxis, yaxis, zaxis, fc), 308-325.  The assertions are compiled in debug builds only:
    the model returns [None] when one fails.  [tol] is the tolerance of mathutils::IsClose
    (not in /repo), a parameter. *)
Definition IsClose (tol a b : R) : bool := if Rle_dec (Rabs (a - b)) tol then true else false.
Definition Rot_SetAxes (tol : R) (x y z : vec) (fc : conv) : option quat :=
  if (IsClose tol (vdot x y) 0 && IsClose tol (vdot x z) 0 && IsClose tol (vdot y z) 0 &&
      IsClose tol (vnorm x) 1 && IsClose tol (vnorm y) 1 && IsClose tol (vnorm z) 1)%bool
  then Some (UQ_SetMatrix (M (vx x) (vx y) (vx z) (vy x) (vy y) (vy z) (vz x) (vz y) (vz z)) fc)
  else None.

(** ** FrFrame (common/FrFrame.cpp) *)

(** FrFrame(pos, quaternion, fc) 24-32 *)
Definition Frame_make (p : vec) (q : quat) (fc : conv) : frame := Fr (swap_if fc p) q.
(** SetPosition 38-48 *)
Definition SetPosition (f : frame) (p : vec) (fc : conv) : frame := Fr (swap_if fc p) (frot f).
(** GetPosition 50-67 *)
Definition GetPosition (f : frame) (fc : conv) : vec := swap_if fc (fpos f).
(** SetX, SetY, SetZ 69-81 *)
Definition SetX (f : frame) (x : R) (fc : conv) : frame := Fr (V x (vy (fpos f)) (vz (fpos f))) (frot f).
Definition SetY (f : frame) (y : R) (fc : conv) : frame :=
  Fr (V (vx (fpos f)) (if IsNED fc then - y else y) (vz (fpos f))) (frot f).
Definition SetZ (f : frame) (z : R) (fc : conv) : frame :=
  Fr (V (vx (fpos f)) (vy (fpos f)) (if IsNED fc then - z else z)) (frot f).
(** GetX, GetY, GetZ 83-97 *)
Definition GetX (f : frame) (fc : conv) : R := vx (fpos f).
Definition GetY (f : frame) (fc : conv) : R := if IsNED fc then - vy (fpos f) else vy (fpos f).
Definition GetZ (f : frame) (fc : conv) : R := if IsNED fc then - vz (fpos f) else vz (fpos f).
(** Set(pos, e1, e2, e3, fc) 99-108: fc is not used for the rotation *)
Definition Frame_SetAxes (f : frame) (p e1 e2 e3 : vec) (fc : conv) : frame :=
  Fr (swap_if fc p)
     (Get_A_quaternion (M (vx e1) (vx e2) (vx e3) (vy e1) (vy e2) (vy e3) (vz e1) (vz e2) (vz e3))).
(** SetRotation 110-116, SetNoRotation 118-122, SetNoTranslation 124-126, SetIdentity 128-130 *)
Definition SetRotation (f : frame) (q : quat) : frame := Fr (fpos f) q.
Definition SetNoRotation (f : frame) : frame := Fr (fpos f) qone.
Definition SetNoTranslation (f : frame) : frame := Fr vzero (frot f).
Definition SetIdentity (f : frame) : frame := fident.
(** operator* 140-144; operator*= 146-148 (uses >>=) *)
Definition Frame_mul (a b : frame) : frame := chmul a b.
Definition Frame_mul_assign (a b : frame) : frame := chrshift_assign a b.
(** Inverse, GetInverse 345-352 *)
Definition Frame_Inverse (a : frame) : frame := chinv a.
(** GetOtherFrameRelativeTransform_WRT_ThisFrame 167-169 *)
Definition OtherRelThis (this other : frame) : frame := Frame_mul (Frame_Inverse this) other.
(** GetThisFrameRelativeTransform_WRT_OtherFrame 171-173 *)
Definition ThisRelOther (this other : frame) : frame := Frame_Inverse (OtherRelThis this other).
(** RotateInFrame(quaternion) 199-205 *)
Definition RotateInFrame (f : frame) (q : quat) : frame := Fr (fpos f) (qmul (frot f) q).
(** RotateInFrame(direction, angle, fc) 207-209 *)
Definition RotateInFrame_AxisAngle (f : frame) (axis : vec) (angle : R) (fc : conv) : frame :=
  RotateInFrame f (UQ_SetAxisAngle axis angle fc).
(** RotateInFrame(phiRad, thetaRad, psiRad, seq, fc) 211-215: calls the _DEGREES setter *)
Definition RotateInFrame_Euler (f : frame) (phiRad thetaRad psiRad : R) (fc : conv) : frame :=
  RotateInFrame f (Rot_SetCardan_DEGREES phiRad thetaRad psiRad fc).
(** RotateInParent 217-227 *)
Definition RotateInParent (f : frame) (q : quat) : frame := Fr (fpos f) (qmul q (frot f)).
Definition RotateInParent_AxisAngle (f : frame) (axis : vec) (angle : R) (fc : conv) : frame :=
  RotateInParent f (UQ_SetAxisAngle axis angle fc).
(** RotateInParent(phiRad, thetaRad, psiRad, seq, fc) 229-233 *)
Definition RotateInParent_Euler (f : frame) (phiRad thetaRad psiRad : R) (fc : conv) : frame :=
  RotateInParent f (Rot_SetCardan_DEGREES phiRad thetaRad psiRad fc).
(** ProjectVectorParentInFrame, ProjectVectorFrameInParent: FrFrame.h 361-375 *)
Definition ProjectVectorParentInFrame (f : frame) (v : vec) (fc : conv) : vec :=
  UQ_Rotate (UQ_Inverse (frot f)) v fc.
Definition ProjectVectorFrameInParent (f : frame) (v : vec) (fc : conv) : vec :=
  UQ_Rotate (frot f) v fc.
(** TranslateInParent 248-252 (ChFrame::Move(vector) adds to the position) *)
Definition TranslateInParent (f : frame) (t : vec) (fc : conv) : frame :=
  Fr (vadd (fpos f) (swap_if fc t)) (frot f).
(** TranslateInFrame 235-237 *)
Definition TranslateInFrame (f : frame) (t : vec) (fc : conv) : frame :=
  TranslateInParent f (ProjectVectorFrameInParent f t fc) fc.
(** RotX_RADIANS 266-275, RotY_RADIANS 281-292, RotZ_RADIANS 298-309 *)
Definition RotX_RADIANS (f : frame) (angle : R) (fc : conv) (localAxis : bool) : frame :=
  let axis := if localAxis then qxaxis (frot f) else V 1 0 0 in
  Fr (fpos f) (qmul (Q_from_AngAxis angle axis) (frot f)).
Definition RotY_RADIANS (f : frame) (angle : R) (fc : conv) (localAxis : bool) : frame :=
  let axis := if localAxis then qyaxis (frot f) else V 0 1 0 in
  let angle := if IsNED fc then - angle else angle in
  Fr (fpos f) (qmul (Q_from_AngAxis angle axis) (frot f)).
Definition RotZ_RADIANS (f : frame) (angle : R) (fc : conv) (localAxis : bool) : frame :=
  let axis := if localAxis then qzaxis (frot f) else V 0 0 1 in
  let angle := if IsNED fc then - angle else angle in
  Fr (fpos f) (qmul (Q_from_AngAxis angle axis) (frot f)).
(** SetRotX/Y/Z_RADIANS 315-338: SetIdentity first *)
Definition SetRotX_RADIANS (f : frame) (angle : R) (fc : conv) : frame := RotX_RADIANS (SetIdentity f) angle fc false.
Definition SetRotY_RADIANS (f : frame) (angle : R) (fc : conv) : frame := RotY_RADIANS (SetIdentity f) angle fc false.
Definition SetRotZ_RADIANS (f : frame) (angle : R) (fc : conv) : frame := RotZ_RADIANS (SetIdentity f) angle fc false.
(** ProjectToXYPlane 354-368; [None]: an assertion of FrRotation::Set fails *)
Definition ProjectToXYPlane (tol : R) (f : frame) (fc : conv) : option frame :=
  let x := UQ_GetXAxis (frot f) fc in
  let xaxis := vnormalize (V (vx x) (vy x) 0) in
  let y := UQ_GetYAxis (frot f) fc in
  let yaxis := vnormalize (V (vx y) (vy y) 0) in
  match Rot_SetAxes tol xaxis yaxis (V 0 0 1) fc with
  | Some q => Some (Frame_make (GetPosition f fc) q fc)
  | None => None
  end.
(** GetPointPositionInParent 382-386, GetPointPositionInFrame 388-391 *)
Definition GetPointPositionInParent (f : frame) (p : vec) (fc : conv) : vec :=
  vadd (GetPosition f fc) (ProjectVectorFrameInParent f p fc).
Definition GetPointPositionInFrame (f : frame) (p : vec) (fc : conv) : vec :=
  ProjectVectorParentInFrame f (vsub p (GetPosition f fc)) fc.

(** In-place operations of a frame, as one instruction set (used for statements about every
    sequence of calls). *)
Inductive frame_op :=
| OSetPosition (p : vec) (fc : conv)
| OSetRotation (q : quat)
| OSetNoRotation | OSetNoTranslation | OSetIdentity
| OTranslateInParent (t : vec) (fc : conv)
| OTranslateInFrame (t : vec) (fc : conv)
| ORotateInFrame (q : quat)
| ORotateInFrameAA (axis : vec) (angle : R) (fc : conv)
| ORotateInParent (q : quat)
| ORotateInParentAA (axis : vec) (angle : R) (fc : conv)
| ORotX (angle : R) (fc : conv) (localAxis : bool)
| ORotY (angle : R) (fc : conv) (localAxis : bool)
| ORotZ (angle : R) (fc : conv) (localAxis : bool)
| OSetRotX (angle : R) (fc : conv)
| OSetRotY (angle : R) (fc : conv)
| OSetRotZ (angle : R) (fc : conv)
| OInverse.
(** The method called for each instruction (line numbers above). *)
Definition frame_step (o : frame_op) (f : frame) : frame :=
  match o with
  | OSetPosition p fc => SetPosition f p fc
  | OSetRotation q => SetRotation f q
  | OSetNoRotation => SetNoRotation f
  | OSetNoTranslation => SetNoTranslation f
  | OSetIdentity => SetIdentity f
  | OTranslateInParent t fc => TranslateInParent f t fc
  | OTranslateInFrame t fc => TranslateInFrame f t fc
  | ORotateInFrame q => RotateInFrame f q
  | ORotateInFrameAA u a fc => RotateInFrame_AxisAngle f u a fc
  | ORotateInParent q => RotateInParent f q
  | ORotateInParentAA u a fc => RotateInParent_AxisAngle f u a fc
  | ORotX a fc l => RotX_RADIANS f a fc l
  | ORotY a fc l => RotY_RADIANS f a fc l
  | ORotZ a fc l => RotZ_RADIANS f a fc l
  | OSetRotX a fc => SetRotX_RADIANS f a fc
  | OSetRotY a fc => SetRotY_RADIANS f a fc
  | OSetRotZ a fc => SetRotZ_RADIANS f a fc
  | OInverse => Frame_Inverse f
  end.

(** ** Torsors (math/Torsor.cpp); members are stored in NWU *)
Record torsor := Torsor { t_res : vec; t_mom : vec; t_pt : vec }.
(** Torsor::Set 15-25 *)
Definition Torsor_Set (r m p : vec) (fc : conv) : torsor := Torsor (swap_if fc r) (swap_if fc m) (swap_if fc p).
(** Torsor::TransportMomentAtPoint 27-34 *)
Definition TransportMomentAtPoint (t : torsor) (newp : vec) (fc : conv) : vec :=
  swap_if fc (vadd (t_mom t) (vcross (vsub (t_pt t) (swap_if fc newp)) (t_res t))).
(** Torsor::GetPoint 36-40 *)
Definition Torsor_GetPoint (t : torsor) (fc : conv) : vec := swap_if fc (t_pt t).
(** GeneralizedForceTorsor: constructor 64-66, GetForce 68-70, GetTorqueAtPoint 72-74 *)
Definition ForceTorsor (force torque p : vec) (fc : conv) : torsor := Torsor_Set force torque p fc.
Definition GetForce (t : torsor) : vec := t_res t.
Definition GetTorqueAtPoint (t : torsor) (p : vec) (fc : conv) : vec := TransportMomentAtPoint t p fc.
(** GeneralizedVelocityTorsor: constructor 87-92 (resultant = angular velocity),
    GetAngularVelocity 94-96, GetLinearVelocityAtPoint 98-100 *)
Definition VelocityTorsor (lin ang p : vec) (fc : conv) : torsor := Torsor_Set ang lin p fc.
Definition GetAngularVelocity (t : torsor) : vec := t_res t.
Definition GetLinearVelocityAtPoint (t : torsor) (p : vec) (fc : conv) : vec := TransportMomentAtPoint t p fc.
