(** Specification vocabulary for the equilibrium frames and the linear hydrostatic force
    (C48, C58, C59, C60). *)
From Coq Require Import Reals List.
From Verif Require Import GeoModel GeoSpec BodyModel BodySpec.
Open Scope R_scope.

(** An angle about the vertical given in a convention, in NWU (the vertical axis points down in NED) *)
Definition yaw_in (fc : conv) (a : R) : R := match fc with NWU => a | NED => - a end.
(** The frame stands upright at the world point P with the heading psi (NWU) *)
Definition stands (f : frame) (P : vec) (psi : R) : Prop :=
  unitq (frot f) /\ forall x, GetPointPositionInParent f x NWU = plus3 P (mv (Rz psi) x).
(** Rotation with roll phi, pitch theta and heading psi *)
Definition attitude (phi theta psi : R) : mat := mm (Rz psi) (mm (Ry theta) (Rx phi)).
(** A frame attached to a body stands, with respect to the upright frame at P with heading psi, at d
    (in the axes of that frame), with roll phi, pitch theta and yaw psi' *)
Definition displaced (f : frame) (P : vec) (psi : R) (d : vec) (phi theta psi' : R) : Prop :=
  unitq (frot f) /\ forall x, GetPointPositionInParent f x NWU = plus3 P (mv (Rz psi) (plus3 d (mv (attitude phi theta psi') x))).
(** Update times at least eps apart, starting from t0 *)
Fixpoint spaced (eps t0 : R) (l : list R) : Prop :=
  match l with nil => True | t :: r => eps <= Rabs (t - t0) /\ spaced eps t r end.
(** Rate that the update does not discard: zero or squared norm above eps *)
Definition fast_enough (eps : R) (v : vec) : Prop := v = origin \/ eps < dot3 v v.
Definition turns_enough (eps w : R) : Prop := w = 0 \/ eps < Rabs w.
(** What the node of the body shows at an update: position, velocity, vertical angular velocity, and
    an attitude whose heading is beta (away from vertical pitch) *)
Record sight := Sight { s_pos : vec; s_vel : vec; s_wz : R; s_heading : R }.
Definition shows (n : marker) (s : sight) : Prop :=
  NGetPositionInWorld n NWU = s_pos s /\ NGetVelocityInWorld n NWU = s_vel s /\ vz (NGetAngularVelocityInWorld n NWU) = s_wz s /\
  unitq (frot (NGetFrameInWorld n)) /\
  exists phi theta, - (PI / 2) < theta < PI / 2 /\
    forall x, GetPointPositionInParent (NGetFrameInWorld n) x NWU = plus3 (s_pos s) (mv (attitude phi theta (s_heading s)) x).
(** Explicit Euler step (velocity first, then position) of y'' = - k y - c y' *)
Definition damped_step (k c h : R) (s : R * R) : R * R :=
  let v := snd s - h * (k * fst s + c * snd s) in (fst s + h * v, v).
Fixpoint damped (k c h : R) (n : nat) (s : R * R) : R * R :=
  match n with O => s | S m => damped_step k c h (damped k c h m s) end.
(** Horizontal and vertical parts *)
Definition flat (v : vec) : vec := V (vx v) (vy v) 0.
(** Net heave force (without the weight) and the moments in roll and pitch shown by a force *)
Definition restoring (weight : R) (f : vec) (torque : vec) : vec := V (vz f - weight) (vx torque) (vy torque).
