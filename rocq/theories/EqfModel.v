(** Model of the equilibrium frames (hydrodynamics/FrEquilibriumFrame.cpp) and of the linear
    hydrostatic force (hydrodynamics/hydrostatic/FrLinearHydrostaticForce.cpp).  Paths are relative
    to /repo/src/frydom.  The node of the frame is a marker of the body (see BodyModel); functions
    that read it take the marker as it is at the time of the call.  Logging is not modelled.
    No proofs in this file. *)
From Coq Require Import Reals List.
From Verif Require Import GeoModel BodyModel SigModel HydModel.
Open Scope R_scope.

(** FLT_EPSILON of <cfloat>: 2^-23 *)
Definition FLT_EPSILON : R := / 8388608.

(** FrEquilibriumFrame: m_frame, m_velocity, m_angularVelocity, m_initSpeedFromBody, c_prevTime *)
Record eqf := EF { ef_frame : frame; ef_vel : vec; ef_w : R; ef_init : bool; ef_prev : R }.

(** ApplyFrameProjection 232-238.  Line 233 acts on a copy or on a frame without rotation: no effect. *)
Definition ApplyFrameProjection (b : body) (f : frame) : frame :=
  RotZ_RADIANS f (a_psi (Rot_GetCardan_RADIANS (GetQuaternion b) NWU)) NWU true.
(** SetEqFramePositionOrientation(localPos, rot, fc) 58-69: the frame, and the body whose node number
    [i] has been placed *)
Definition SetEqFramePositionOrientation (b : body) (i : nat) (n : marker) (localPos : vec) (rot : R) (fc : conv) : body * frame :=
  let n1 := NSetPositionInBody b n localPos fc in
  let f0 := SetPosition fident (NGetPositionInWorld n1 NWU) NWU in
  let f := RotZ_RADIANS (ApplyFrameProjection b f0) rot fc true in
  (set_marker b i (NSetFrameInWorld b f), f).
(** SetEqFramePositionOrientation() 48-56 *)
Definition SetEqFramePositionOrientation0 (b : body) (i : nat) (n : marker) : body * frame :=
  let f := ApplyFrameProjection b (SetPosition fident (NGetPositionInWorld n NWU) NWU) in
  (set_marker b i (NSetFrameInWorld b f), f).
(** Constructor 27-38: the node is the last marker of the body *)
Definition EF_make (b : body) (localPos : vec) (rot : R) (fc : conv) : body * eqf :=
  let b1 := NewNode b in
  let i := length (b_marks b) in
  let n := Impose_Rel_Coord (b_cog b) fident in
  let '(b2, f) := SetEqFramePositionOrientation b1 i n localPos rot fc in
  (b2, EF f vzero 0 false 0).
(** make_equilibrium_frame 246-262 (two makers); adding to the system is not modelled *)
Definition EF_make_default (b : body) : body * eqf := EF_make b (GetCOG b NWU) 0 NWU.
(** InitializeVelocityFromBody 44-46 *)
Definition InitializeVelocityFromBody (e : eqf) (is_init : bool) : eqf := EF (ef_frame e) (ef_vel e) (ef_w e) is_init (ef_prev e).
(** GetPositionInWorld 71, GetFrame 79 *)
Definition EF_GetPositionInWorld (e : eqf) (fc : conv) : vec := GetPosition (ef_frame e) fc.
Definition EF_GetFrame (e : eqf) : frame := ef_frame e.
(** SetVelocityInWorld 83-87: line 84 calls the overload of SwapFrameConvention that returns a copy
    (the argument is const) and drops the result *)
Definition SetVelocityInWorld (e : eqf) (v : vec) (fc : conv) : eqf := EF (ef_frame e) v (ef_w e) false (ef_prev e).
(** SetVelocityInFrame 89-93 *)
Definition SetVelocityInFrame (e : eqf) (v : vec) (fc : conv) : eqf :=
  SetVelocityInWorld e (ProjectVectorFrameInParent (ef_frame e) v fc) NWU.
(** SetAngularVelocity 95-98 *)
Definition EF_SetAngularVelocity (e : eqf) (w : R) (fc : conv) : eqf :=
  EF (ef_frame e) (ef_vel e) (if IsNED fc then - w else w) (ef_init e) (ef_prev e).
(** GetFrameVelocityInWorld 100-104, InFrame 106-108 *)
Definition GetFrameVelocityInWorld (e : eqf) (fc : conv) : vec := swap_if fc (ef_vel e).
Definition GetFrameVelocityInFrame (e : eqf) (fc : conv) : vec := ProjectVectorParentInFrame (ef_frame e) (ef_vel e) fc.
(** GetPerturbationFrame 110-112 *)
Definition GetPerturbationFrame (e : eqf) (n : marker) : frame := Frame_mul (Frame_Inverse (ef_frame e)) (NGetFrameInWorld n).
(** GetPerturbationVelocityInWorld 114-118, InFrame 120-123 *)
Definition GetPerturbationVelocityInWorld (e : eqf) (n : marker) (fc : conv) : vec :=
  vsub (NGetVelocityInWorld n fc) (GetFrameVelocityInWorld e fc).
Definition GetPerturbationVelocityInFrame (e : eqf) (n : marker) (fc : conv) : vec :=
  ProjectVectorParentInFrame (ef_frame e) (GetPerturbationVelocityInWorld e n fc) fc.
(** GetFrameAngularVelocity 137-141, GetPerturbationAngularVelocity 143-147, InFrame 149-152 *)
Definition GetFrameAngularVelocity (e : eqf) (fc : conv) : vec := V 0 0 (if IsNED fc then ef_w e * -1 else ef_w e).
Definition GetPerturbationAngularVelocity (e : eqf) (n : marker) (fc : conv) : vec :=
  vsub (NGetAngularVelocityInWorld n fc) (GetFrameAngularVelocity e fc).
Definition GetPerturbationAngularVelocityInFrame (e : eqf) (n : marker) (fc : conv) : vec :=
  ProjectVectorParentInFrame (ef_frame e) (GetPerturbationAngularVelocity e n fc) fc.
(** SetAngleRotation 240-242 *)
Definition SetAngleRotation (e : eqf) (angle : R) (fc : conv) : eqf :=
  EF (RotZ_RADIANS (ef_frame e) angle fc true) (ef_vel e) (ef_w e) (ef_init e) (ef_prev e).
(** Initialize 154-159 *)
Definition EF_Initialize (e : eqf) (n : marker) : eqf :=
  EF (ef_frame e) (if ef_init e then NGetVelocityInWorld n NWU else ef_vel e) (ef_w e) (ef_init e) 0.
(** Compute 161-179 *)
Definition EF_Compute (e : eqf) (time : R) : eqf :=
  if Rlt_dec (Rabs (time - ef_prev e)) FLT_EPSILON then e else
  let dt := time - ef_prev e in
  let prevPosition := GetPosition (ef_frame e) NWU in
  let f1 := if Rlt_dec FLT_EPSILON (vdot (ef_vel e) (ef_vel e))
            then SetPosition (ef_frame e) (vadd prevPosition (vscale dt (ef_vel e))) NWU else ef_frame e in
  let f2 := if Rlt_dec FLT_EPSILON (Rabs (ef_w e)) then RotZ_RADIANS f1 (ef_w e * dt) NWU true else f1 in
  EF f2 (ef_vel e) (ef_w e) (ef_init e) time.
Definition EF_ComputeAll (e : eqf) (times : list R) : eqf := fold_left EF_Compute times e.

(** ** FrEqFrameSpringDamping 253-314 *)
(** m_stiffness, m_damping and its own m_prevTime (= 0, FrEquilibriumFrame.h 184) *)
Record sdf := SD { sd_base : eqf; sd_k : R; sd_c : R; sd_prev : R }.
(** SetSpringDamping 305-311 *)
Definition SetSpringDamping (s : sdf) (cutoffTime dampingRatio : R) : sdf :=
  let w0 := 2 * PI / cutoffTime in
  SD (sd_base s) (w0 * w0) (2 * dampingRatio * w0) (sd_prev s).
(** Constructor 253-263; makers 315-341 *)
Definition SD_make (b : body) (localPos : vec) (rot : R) (fc : conv) (cutoffTime dampingRatio : R) : body * sdf :=
  let '(b1, e) := EF_make b localPos rot fc in
  (b1, SetSpringDamping (SD e 0 0 0) cutoffTime dampingRatio).
(** Initialize is inherited: it acts on the base only *)
Definition SD_Initialize (s : sdf) (n : marker) : sdf := SD (EF_Initialize (sd_base s) n) (sd_k s) (sd_c s) (sd_prev s).
(** Compute 265-303.  RotZ_RADIANS of FrRotation composes on the right. *)
Definition SD_Compute (s : sdf) (n : marker) (time : R) : sdf :=
  if Rlt_dec (Rabs (time - sd_prev s)) FLT_EPSILON then s else
  let e := sd_base s in
  let bodyPosition := NGetPositionInWorld n NWU in
  let bodyVelocity := NGetVelocityInWorld n NWU in
  let position := GetPosition (ef_frame e) NWU in
  let force0 := vadd (vscale (sd_k s) (vsub bodyPosition position)) (vscale (sd_c s) (vsub bodyVelocity (ef_vel e))) in
  let force := V (vx force0) (vy force0) 0 in
  let psi := a_psi (Rot_GetCardan_RADIANS (frot (ef_frame e)) NWU) in
  let bodyPsi := a_psi (Rot_GetCardan_RADIANS (frot (NGetFrameInWorld n)) NWU) in
  let bodyAngularVelocity := vz (NGetAngularVelocityInWorld n NWU) in
  let torque := (bodyPsi - psi) * sd_k s + (bodyAngularVelocity - ef_w e) * sd_c s in
  let dt := time - sd_prev s in
  let velocity := vadd (ef_vel e) (vscale dt force) in
  let position' := vadd position (vscale dt velocity) in
  let w := ef_w e + torque * dt in
  let f1 := SetPosition (ef_frame e) position' NWU in
  let f2 := SetRotation f1 (Rot_RotAxisAngle (frot f1) (V 0 0 1) (w * dt) NWU) in
  SD (EF f2 velocity w (ef_init e) (ef_prev e)) (sd_k s) (sd_c s) time.

(** ** FrEqFrameMeanMotion 345-430 *)
(** A recorder of vectors (FrTimeRecorder<Velocity>) is three scalar recorders: the decisions depend
    on the times only and the arithmetic is componentwise. *)
Record vrec := VR { vr_x : recorder; vr_y : recorder; vr_z : recorder }.
Definition newVrec (persistence step : R) : vrec :=
  VR (newRecorder persistence step) (newRecorder persistence step) (newRecorder persistence step).
Definition VRecord (r : vrec) (t : R) (v : vec) : vrec := VR (Record_ (vr_x r) t (vx v)) (Record_ (vr_y r) t (vy v)) (Record_ (vr_z r) t (vz v)).
Definition VGetMean (r : vrec) : vec := V (GetMean (vr_x r)) (GetMean (vr_y r)) (GetMean (vr_z r)).
(** Optional position correction: m_ErrPositionRec, m_ErrAngleRec, m_errPosCoeff, m_errAngleCoeff *)
Record corr := Corr { co_pos : vrec; co_ang : recorder; co_kp : R; co_ka : R }.
(** m_prevTime has no initial value (FrEquilibriumFrame.h 253): [garbage] is what the memory holds *)
Record mmf := MM { mm_base : eqf; mm_vel : vrec; mm_wz : recorder; mm_corr : option corr; mm_prev : R }.
(** Constructor 345-355, SetRecorders 401-406 *)
Definition MM_make (garbage : R) (b : body) (localPos : vec) (rot : R) (fc : conv) (timePersistence timeStep : R) : body * mmf :=
  let '(b1, e) := EF_make b localPos rot fc in
  (b1, MM e (newVrec timePersistence timeStep) (newRecorder timePersistence timeStep) None garbage).
(** SetPositionCorrection 357-366 *)
Definition SetPositionCorrection (s : mmf) (timePersistence timeStep posCoeff angleCoeff : R) : mmf :=
  MM (mm_base s) (mm_vel s) (mm_wz s)
     (Some (Corr (newVrec timePersistence timeStep) (newRecorder timePersistence timeStep) posCoeff angleCoeff)) (mm_prev s).
(** Compute 368-399 *)
Definition MM_Compute (s : mmf) (n : marker) (time : R) : mmf :=
  if Rlt_dec (Rabs (time - mm_prev s)) FLT_EPSILON then s else
  let e := mm_base s in
  let rv := VRecord (mm_vel s) time (NGetVelocityInWorld n NWU) in
  let rw := Record_ (mm_wz s) time (vz (NGetAngularVelocityInWorld n NWU)) in
  let velocity := VGetMean rv in
  let w := GetMean rw in
  let dt := time - mm_prev s in
  let position := vadd (GetPosition (ef_frame e) NWU) (vscale dt velocity) in
  let angle := w * dt in
  let '(position', angle', corr') :=
    match mm_corr s with
    | None => (position, angle, None)
    | Some c =>
      let rp := VRecord (co_pos c) time (vsub (NGetPositionInWorld n NWU) (GetPosition (ef_frame e) NWU)) in
      let bodyAngle := a_psi (Rot_GetCardan_RADIANS (frot (NGetFrameInWorld n)) NWU) in
      let frameAngle := a_psi (Rot_GetCardan_RADIANS (frot (ef_frame e)) NWU) in
      let ra := Record_ (co_ang c) time (bodyAngle - frameAngle) in
      (vadd position (vscale (co_kp c) (VGetMean rp)), angle + GetMean ra * co_ka c, Some (Corr rp ra (co_kp c) (co_ka c)))
    end in
  let f1 := SetPosition (ef_frame e) position' NWU in
  let f2 := SetRotation f1 (Rot_RotAxisAngle (frot f1) (V 0 0 1) angle' NWU) in
  MM (EF f2 velocity w (ef_init e) (ef_prev e)) rv rw corr' time.

(** Successive updates: m steps of h of a spring-damping frame beside a body at rest; updates of a
    mean-motion frame, each with the node of the body at that time *)
Fixpoint sd_run (s : sdf) (n : marker) (h : R) (m : nat) : sdf :=
  match m with O => s | S j => SD_Compute (sd_run s n h j) n (INR m * h) end.
Fixpoint mm_run (s : mmf) (l : list (R * marker)) : mmf := match l with nil => s | (t, n) :: r => mm_run (MM_Compute s n t) r end.

(** ** FrLinearHydrostaticForce *)
(** Compute 42-76; [None]: GetCardanAngles leaves the roll angle uninitialised (see mat2eul_xyz).
    [stiff] is m_stiffnessMatrix, [s] the force record before the call. *)
Definition LH_Compute (g mass : R) (stiff : mat) (e : eqf) (n : marker) (s : force) : option force :=
  let deltaFrame := GetPerturbationFrame e n in
  let a := Rot_GetCardan_RADIANS (frot deltaFrame) NWU in
  match a_phi a with
  | None => None
  | Some roll =>
    let state := V (vz (GetPosition deltaFrame NWU)) roll (a_theta a) in
    let forceState := vneg (StiffMul stiff state) in
    let worldForce := V 0 0 (vx forceState + g * mass) in
    let s1 := SetForceInWorldAtCOG s worldForce NWU in
    Some (SetTorqueInBodyAtCOG s1 (V (vy forceState) (vz forceState) 0) NWU)
  end.
