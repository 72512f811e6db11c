(** Model of the inertia tensors and assemblies of FRyDoM (core/body/FrInertiaTensor.{h,cpp},
    core/body/FrAssembly.cpp, FrBody::GetInertiaTensor / SetInertiaTensor).
    Paths are relative to /repo/src/frydom.  [double] is modelled by [R].  No proofs in this file. *)
From Coq Require Import Reals List.
From Verif Require Import GeoModel BodyModel.
Import ListNotations.
Open Scope R_scope.

(** Eigen sums, differences, products by a scalar and transposition of 3x3 matrices *)
Definition madd (a b : mat) : mat :=
  M (m00 a + m00 b) (m01 a + m01 b) (m02 a + m02 b) (m10 a + m10 b) (m11 a + m11 b) (m12 a + m12 b)
    (m20 a + m20 b) (m21 a + m21 b) (m22 a + m22 b).
Definition msub (a b : mat) : mat :=
  M (m00 a - m00 b) (m01 a - m01 b) (m02 a - m02 b) (m10 a - m10 b) (m11 a - m11 b) (m12 a - m12 b)
    (m20 a - m20 b) (m21 a - m21 b) (m22 a - m22 b).
Definition mscale (k : R) (a : mat) : mat :=
  M (k * m00 a) (k * m01 a) (k * m02 a) (k * m10 a) (k * m11 a) (k * m12 a) (k * m20 a) (k * m21 a) (k * m22 a).
Definition mtransp (a : mat) : mat :=
  M (m00 a) (m10 a) (m20 a) (m01 a) (m11 a) (m21 a) (m02 a) (m12 a) (m22 a).

(** The six coefficients passed to and returned by the API, in the order of the signatures *)
Record coeffs := Coeffs { Ixx : R; Iyy : R; Izz : R; Ixy : R; Ixz : R; Iyz : R }.
(** "m << Ixx, Ixy, Ixz, Ixy, Iyy, Iyz, Ixz, Iyz, Izz" *)
Definition coeffs_matrix (c : coeffs) : mat :=
  M (Ixx c) (Ixy c) (Ixz c) (Ixy c) (Iyy c) (Iyz c) (Ixz c) (Iyz c) (Izz c).
(** SplitMatrix33IntoCoeffs(m, Ixx, Ixy, Ixz, Ixy, Iyy, Iyz, Ixz, Iyz, Izz), math/FrMatrix.cpp 19-33:
    assignments in row-major order, so the later (lower) element wins for each repeated argument. *)
Definition SplitMatrix33IntoCoeffs (m : mat) : coeffs :=
  Coeffs (m00 m) (m11 m) (m22 m) (m10 m) (m20 m) (m21 m).
(** internal::SwapInertiaFrameConvention, FrInertiaTensor.h 116-133, both overloads *)
Definition SwapInertia (c : coeffs) : coeffs := Coeffs (Ixx c) (Iyy c) (Izz c) (- Ixy c) (- Ixz c) (Iyz c).
Definition SwapInertiaMatrix (m : mat) : mat :=
  M (m00 m) (- m01 m) (- m02 m) (- m10 m) (m11 m) (m12 m) (- m20 m) (m21 m) (m22 m).

(** class FrInertiaTensor, FrInertiaTensor.h 34-44 *)
Record tensor := Tensor { i_mass : R; i_cog : vec; i_mat : mat }.

(** GetPointMassInertiaMatrix, FrInertiaTensor.cpp 108-127 *)
Definition GetPointMassInertiaMatrix (mass : R) (p : vec) : mat :=
  let a := vx p in let b := vy p in let c := vz p in
  let a2 := a * a in let b2 := b * b in let c2 := c * c in
  let ab := a * b in let ac := a * c in let bc := b * c in
  mscale mass (M (b2 + c2) (- ab) (- ac) (- ab) (a2 + c2) (- bc) (- ac) (- bc) (a2 + b2)).

(** Constructor from coefficients at a frame, 22-47 *)
Definition Tensor_AtFrame (mass : R) (c : coeffs) (coeffsFrame : frame) (cogPosition : vec) (fc : conv) : tensor :=
  let c := if IsNED fc then SwapInertia c else c in
  let cog := if IsNED fc then SwapFrameConvention cogPosition else cogPosition in
  let rot_rp := UQ_GetRotationMatrix (frot coeffsFrame) in
  let I := mmul (mmul rot_rp (coeffs_matrix c)) (mtransp rot_rp) in
  let PG := vsub cog (GetPosition coeffsFrame NWU) in
  Tensor mass cog (msub I (GetPointMassInertiaMatrix mass PG)).
(** Constructor from coefficients at the COG, 49-61: the coefficients are not swapped *)
Definition Tensor_AtCOG (mass : R) (c : coeffs) (cogPos : vec) (fc : conv) : tensor :=
  Tensor mass (if IsNED fc then SwapFrameConvention cogPos else cogPos) (coeffs_matrix c).
(** GetMass 67-69, GetCOGPosition 71-75 *)
Definition TGetMass (t : tensor) : R := i_mass t.
Definition TGetCOGPosition (t : tensor) (fc : conv) : vec :=
  if IsNED fc then SwapFrameConvention (i_cog t) else i_cog t.
(** GetInertiaCoeffsAtCOG 79-85 *)
Definition GetInertiaCoeffsAtCOG (t : tensor) (fc : conv) : coeffs :=
  let c := SplitMatrix33IntoCoeffs (i_mat t) in if IsNED fc then SwapInertia c else c.
(** GetInertiaCoeffsAtFrame 87-106 *)
Definition GetInertiaCoeffsAtFrame (t : tensor) (f : frame) (fc : conv) : coeffs :=
  let rot_rp := UQ_GetInverseRotationMatrix (frot f) in
  let PG := vsub (i_cog t) (GetPosition f NWU) in
  let I := madd (i_mat t) (GetPointMassInertiaMatrix (i_mass t) PG) in
  let I := mmul (mmul rot_rp I) (mtransp rot_rp) in
  let c := SplitMatrix33IntoCoeffs I in
  if IsNED fc then SwapInertia c else c.
(** GetInertiaMatrixAtFrame 229-241, GetInertiaMatrixAtCOG 243-249 *)
Definition GetInertiaMatrixAtFrame (t : tensor) (f : frame) (fc : conv) : mat :=
  coeffs_matrix (GetInertiaCoeffsAtFrame t f fc).
Definition GetInertiaMatrixAtCOG (t : tensor) (fc : conv) : mat :=
  if IsNED fc then SwapInertiaMatrix (i_mat t) else i_mat t.
(** SetInertiaTensorAtCOG 251-258: fc is ignored *)
Definition SetInertiaTensorAtCOG (t : tensor) (mass : R) (I : mat) (cogPos : vec) (fc : conv) : tensor :=
  Tensor mass cogPos I.
(** SetInertiaTensorAtFrame 260-282 *)
Definition SetInertiaTensorAtFrame (t : tensor) (mass : R) (I : mat) (coeffsFrame : frame) (cogPos : vec) (fc : conv) : tensor :=
  let cog := if IsNED fc then SwapFrameConvention cogPos else cogPos in
  let I := if IsNED fc then SwapInertiaMatrix I else I in
  let rot_rp := UQ_GetRotationMatrix (frot coeffsFrame) in
  let I := mmul (mmul rot_rp I) (mtransp rot_rp) in
  let PG := vsub cog (GetPosition coeffsFrame NWU) in
  Tensor mass cog (msub I (GetPointMassInertiaMatrix mass PG)).
(** Add(tensor, frame2Toframe1), 189-227 (the const overload 164-170 returns the modified copy) *)
Definition Tensor_Add (this other : tensor) (f : frame) : tensor :=
  let newMass := i_mass this + i_mass other in
  let newCOG := vadd (vscale (i_mass this) (i_cog this))
                     (vscale (i_mass other) (GetPointPositionInParent f (i_cog other) NWU)) in
  let newCOG := V (vx newCOG / newMass) (vy newCOG / newMass) (vz newCOG / newMass) in
  let tempFrame := Frame_Inverse f in
  let tempFrame := TranslateInFrame tempFrame newCOG NWU in
  let newMatrix := GetInertiaMatrixAtFrame other tempFrame NWU in
  let tempFrame := SetPosition (SetNoRotation tempFrame) newCOG NWU in
  let newMatrix := madd newMatrix (GetInertiaMatrixAtFrame this tempFrame NWU) in
  SetInertiaTensorAtCOG this newMass newMatrix newCOG NWU.
(** GetMassMatrixAtCOG 151-162, as a function of row and column (0..5) *)
Definition GetMassMatrixAtCOG (t : tensor) (i j : nat) : R :=
  match i, j with
  | 0%nat, 0%nat | 1%nat, 1%nat | 2%nat, 2%nat => i_mass t
  | 3%nat, 3%nat => m00 (i_mat t) | 3%nat, 4%nat => m01 (i_mat t) | 3%nat, 5%nat => m02 (i_mat t)
  | 4%nat, 3%nat => m10 (i_mat t) | 4%nat, 4%nat => m11 (i_mat t) | 4%nat, 5%nat => m12 (i_mat t)
  | 5%nat, 3%nat => m20 (i_mat t) | 5%nat, 4%nat => m21 (i_mat t) | 5%nat, 5%nat => m22 (i_mat t)
  | _, _ => 0%R
  end.

(** ** Bodies with their mass data (the ChBody mass and inertia, set only by SetInertiaTensor) *)
Record mbody := MBody { mb_body : body; mb_mass : R; mb_inertia : mat }.
(** FrBody::SetInertiaTensor, FrBody.cpp 418-439; ChBody::SetInertiaXX sets the diagonal and
    SetInertiaXY the six off-diagonal elements (Chrono, trusted). *)
Definition BSetInertiaTensor (b : mbody) (t : tensor) : mbody :=
  let c := GetInertiaCoeffsAtCOG t NWU in
  MBody (SetCOG (mb_body b) (TGetCOGPosition t NWU) NWU) (TGetMass t) (coeffs_matrix c).
(** FrBody::GetInertiaTensor, FrBody.cpp 410-416 *)
Definition BGetInertiaTensor (b : mbody) : tensor :=
  Tensor_AtCOG (mb_mass b) (SplitMatrix33IntoCoeffs (mb_inertia b)) (GetCOG (mb_body b) NWU) NWU.

(** ** FrAssembly (core/body/FrAssembly.cpp) *)
Record assembly := Assembly { as_master : option mbody; as_bodies : list mbody }.
(** FrAssembly(masterBody) 11; AddToAssembly 13-15 and 17-21; Clear, FrAssembly.h 37-39 *)
Definition make_assembly (m : mbody) : assembly := Assembly (Some m) nil.
Definition AddToAssembly (a : assembly) (b : mbody) : assembly := Assembly (as_master a) (as_bodies a ++ [b]).
Definition AddListToAssembly (a : assembly) (l : list mbody) : assembly := fold_left AddToAssembly l a.
Definition ClearAssembly (a : assembly) : assembly := Assembly (as_master a) nil.
(** GetInertiaTensor 33-53; [None]: the runtime_error is thrown *)
Definition AssemblyInertiaTensor (a : assembly) : option tensor :=
  match as_master a with
  | None => None
  | Some m =>
      let frameMaster := GetFrame (mb_body m) in
      Some (fold_left (fun t b => Tensor_Add t (BGetInertiaTensor b) (OtherRelThis frameMaster (GetFrame (mb_body b))))
                      (as_bodies a) (BGetInertiaTensor m))
  end.
