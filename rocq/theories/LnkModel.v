(** Model of the links: /repo/src/frydom/core/link.  Line numbers refer to links_lib/FrLink.cpp unless another file
    is named.  Bodies and nodes are those of BodyModel; exact real arithmetic.
    Contracts of Chrono: for ReferenceMarkers(node2, node1) the relative coordinates of ChLinkMarkers are those of
    node 2 in node 1 (GetRelM), GetRelM_dt().pos is their derivative, GetRelWvel the relative angular velocity in the
    axes of node 1; Get_react_force and Get_react_torque are the reaction on the body of node 1, at node 1 and in its
    axes (parameters here); ChLinkLock::Update sets C_force and C_torque to zero, and C_force, C_torque are then
    the force and torque on the body of node 2, at node 2, in the axes of node 1; Q_to_AngAxis as below;
    Normalize__PI_PI (mathutils) as below.  Accelerations and log messages are not modelled.  No proofs. *)
From Coq Require Import Reals List Bool.
From Verif Require Import SeaModel GeoModel BodyModel.
Import ListNotations.
Open Scope R_scope.

(** ** Contracts *)
(** chrono::Q_to_AngAxis (called by FrUnitQuaternion::Get, common/FrRotation.cpp 107-112): axis and angle *)
Definition Q_LIMIT : R := 99999999 / 100000000.
Definition Q_to_AngAxis (q : quat) : vec * R :=
  if Rlt_dec (Rabs (q0 q)) Q_LIMIT then
    let arg := acos (q0 q) in let k := / sin arg in (vnormalize (V (k * q1 q) (k * q2 q) (k * q3 q)), 2 * arg)
  else (V 1 0 0, 0).
(** FrRotation::GetRotationVector 277-282 and GetAngle 289-298, common/FrRotation.cpp *)
Definition GetRotationVector (q : quat) (fc : conv) : vec := vscale (snd (Q_to_AngAxis q)) (swap_if fc (fst (Q_to_AngAxis q))).
Definition GetAngle (q : quat) : R := snd (Q_to_AngAxis q).
(** mathutils::Normalize__PI_PI and std::fmod(x, 2 pi); the truncation of a double to an int *)
Definition Normalize__PI_PI (a : R) : R := a - 2 * PI * IZR (Int_part ((a + PI) / (2 * PI))).
Definition trunc (x : R) : Z := if Rle_dec 0 x then Int_part x else (- Int_part (- x))%Z.
Definition fmod_2PI (a : R) : R := a - 2 * PI * IZR (trunc (a / (2 * PI))).

(** ** FrDOFMask, links_lib/FrDOFMaskLink.cpp *)
(** LINK_TYPE *)
Inductive link_type := CYLINDRICAL | FIXED_LINK | FREE_LINK | PRISMATIC | REVOLUTE | SPHERICAL | PRISMATICREVOLUTE | CUSTOM.
Record dof_mask := Mask { k_type : link_type; k_x : bool; k_y : bool; k_z : bool; k_rx : bool; k_ry : bool; k_rz : bool }.
(** Initial values, FrDOFMaskLink.h 31-37 *)
Definition new_mask : dof_mask := Mask FREE_LINK false false false false false false.
(** SetLock 153-161 *)
Definition SetLock (x y z rx ry rz : bool) : dof_mask := Mask CUSTOM x y z rx ry rz.
Inductive mask_op :=
| KLockX (l : bool) | KLockY (l : bool) | KLockZ (l : bool) | KLockRx (l : bool) | KLockRy (l : bool) | KLockRz (l : bool)
| KXZPlane | KXYPlane | KFree | KLocked | KType (t : link_type).
(** MakeItFree 86-94, MakeItLocked 96-104 *)
Definition MakeItFree : dof_mask := Mask FREE_LINK false false false false false false.
Definition MakeItLocked : dof_mask := Mask FIXED_LINK true true true true true true.
(** SetLock_X .. SetLock_Rz 22-50 *)
Definition SetLock_X (m : dof_mask) (l : bool) := Mask CUSTOM l (k_y m) (k_z m) (k_rx m) (k_ry m) (k_rz m).
Definition SetLock_Y (m : dof_mask) (l : bool) := Mask CUSTOM (k_x m) l (k_z m) (k_rx m) (k_ry m) (k_rz m).
Definition SetLock_Z (m : dof_mask) (l : bool) := Mask CUSTOM (k_x m) (k_y m) l (k_rx m) (k_ry m) (k_rz m).
Definition SetLock_Rx (m : dof_mask) (l : bool) := Mask CUSTOM (k_x m) (k_y m) (k_z m) l (k_ry m) (k_rz m).
Definition SetLock_Ry (m : dof_mask) (l : bool) := Mask CUSTOM (k_x m) (k_y m) (k_z m) (k_rx m) l (k_rz m).
Definition SetLock_Rz (m : dof_mask) (l : bool) := Mask CUSTOM (k_x m) (k_y m) (k_z m) (k_rx m) (k_ry m) l.
(** SetLinkType 121-147: SetLock sets the type to CUSTOM again *)
Definition MSetLinkType (t : link_type) : dof_mask :=
  match t with
  | FREE_LINK => SetLock false false false false false false
  | FIXED_LINK => SetLock true true true true true true
  | REVOLUTE => SetLock true true true true true false
  | PRISMATIC => SetLock true true false true true true
  | CYLINDRICAL => SetLock true true false true true false
  | SPHERICAL => SetLock true true true false false false
  | _ => SetLock false false false false false false
  end.
(** LockXZPlane 52-57, LockXYPlane 59-64 and the other operations *)
Definition mask_step (o : mask_op) (m : dof_mask) : dof_mask :=
  match o with
  | KLockX l => SetLock_X m l | KLockY l => SetLock_Y m l | KLockZ l => SetLock_Z m l
  | KLockRx l => SetLock_Rx m l | KLockRy l => SetLock_Ry m l | KLockRz l => SetLock_Rz m l
  | KXZPlane => SetLock_Rz (SetLock_Rx (SetLock_Y MakeItFree true) true) true
  | KXYPlane => SetLock_Ry (SetLock_Rx (SetLock_Z MakeItFree true) true) true
  | KFree => MakeItFree | KLocked => MakeItLocked | KType t => MSetLinkType t
  end.
Definition mask_run (l : list mask_op) : dof_mask := fold_left (fun m o => mask_step o m) l new_mask.
(** HasLockedDOF 78-80, IsFree 82-84, GetNbLockedDOF 106-115, GetNbFreeDOF 117-119 *)
Definition HasLockedDOF (m : dof_mask) : bool := k_x m || k_y m || k_z m || k_rx m || k_ry m || k_rz m.
Definition IsFree (m : dof_mask) : bool := negb (HasLockedDOF m).
Definition GetNbLockedDOF (m : dof_mask) : nat :=
  let c (b : bool) := if b then 1%nat else 0%nat in (c (k_x m) + c (k_y m) + c (k_z m) + c (k_rx m) + c (k_ry m) + c (k_rz m))%nat.
Definition GetNbFreeDOF (m : dof_mask) : nat := (6 - GetNbLockedDOF m)%nat.
(** BuildLinkType 199-254 for the types of SetLinkType 35-86 (FrLinkLockBase): the coordinates of the Chrono mask
    (X, Y, Z, E0, E1, E2, E3) that are locked *)
Definition chrono_mask (t : link_type) : list bool :=
  match t with
  | CYLINDRICAL => [true; true; false; false; true; true; false]
  | FIXED_LINK => [true; true; true; false; true; true; true]
  | FREE_LINK => [false; false; false; false; false; false; false]
  | PRISMATIC => [true; true; false; false; true; true; true]
  | REVOLUTE => [true; true; true; false; true; true; false]
  | SPHERICAL => [true; true; true; false; false; false; false]
  | PRISMATICREVOLUTE => [false; true; true; false; true; true; false]
  | CUSTOM => []
  end.
(** FrLinkLockBase::SetMask 142-160 (FrDOFMaskLink::SetDOFMask) *)
Definition SetMask (m : dof_mask) : list bool :=
  match k_type m with
  | CUSTOM => [k_x m; k_y m; k_z m; false; k_rx m; k_ry m; k_rz m]
  | t => chrono_mask t
  end.

(** ** The cache of a link *)
Record cache := Cache { c_21 : frame; c_12 : frame; c_v21 : vec; c_w21 : vec; c_v12 : vec; c_w12 : vec;
                        c_f1 : vec; c_t1 : vec; c_f2 : vec; c_t2 : vec }.
(** Contracts GetRelM, GetRelM_dt().pos, GetRelWvel for node 1 (marker m1) and node 2 (marker m2) *)
Definition RelM (m1 m2 : marker) : frame := chmul (chinv (mf_frame (mk_abs m1))) (mf_frame (mk_abs m2)).
Definition RelM_dt_pos (m1 m2 : marker) : vec :=
  let a := mk_abs m1 in let b := mk_abs m2 in
  qrotate (qconj (frot (mf_frame a)))
    (vsub (vsub (mf_vel b) (mf_vel a)) (vcross (Wvel_par a) (vsub (fpos (mf_frame b)) (fpos (mf_frame a))))).
Definition RelWvel (m1 m2 : marker) : vec :=
  qrotate (qconj (frot (mf_frame (mk_abs m1)))) (vsub (Wvel_par (mk_abs m2)) (Wvel_par (mk_abs m1))).
(** GenerateCache 102-140; rf and rt are Get_react_force and Get_react_torque *)
Definition GenerateCache (m1 m2 : marker) (rf rt : vec) : cache :=
  let f21 := RelM m1 m2 in let f12 := Frame_Inverse f21 in
  let v21 := RelM_dt_pos m1 m2 in let w21 := RelWvel m1 m2 in
  let f2 := vneg (ProjectVectorFrameInParent f12 rf NWU) in
  Cache f21 f12 v21 w21 (vneg (ProjectVectorFrameInParent f12 v21 NWU)) (vneg (ProjectVectorFrameInParent f12 w21 NWU))
        rf rt f2 (vadd (vneg (ProjectVectorFrameInParent f12 rt NWU)) (vcross (GetPosition f12 NWU) f2)).
(** GetNode2PositionWRTNode1 457, GetNode1PositionWRTNode2 461; velocities 481-495: fc is not used *)
Definition GetNode2PositionWRTNode1 (c : cache) (fc : conv) : vec := GetPosition (c_21 c) fc.
Definition GetNode1PositionWRTNode2 (c : cache) (fc : conv) : vec := GetPosition (c_12 c) fc.
Definition GetVelocityOfNode2WRTNode1 (c : cache) (fc : conv) : vec := c_v21 c.
Definition GetVelocityOfNode1WRTNode2 (c : cache) (fc : conv) : vec := c_v12 c.
Definition GetAngularVelocityOfNode2WRTNode1 (c : cache) (fc : conv) : vec := c_w21 c.
Definition GetAngularVelocityOfNode1WRTNode2 (c : cache) (fc : conv) : vec := c_w12 c.

(** ** Forces of the link on the nodes and on the bodies *)
(** A force and a torque at a node of axes [m], in the body: GetLinkReactionForceOnBody1 533-541 and
    GetLinkReactionTorqueOnBody1AtCOG 555-575; the same expressions for the spring 647-676 *)
Definition force_on_body (m : marker) (f : vec) (fc : conv) : vec := ProjectVectorFrameInParent (NGetFrameWRT_COG m) f fc.
Definition torque_on_body (m : marker) (f t : vec) (fc : conv) : vec :=
  let n := NGetFrameWRT_COG m in
  vadd (ProjectVectorFrameInParent n t fc) (vcross (GetPosition n fc) (ProjectVectorFrameInParent n f fc)).
(** GetLinkReactionForceOnNode1/2 521-531, GetLinkReactionTorqueOnNode1/2 543-553 *)
Definition GetLinkReactionForceOnNode1 (c : cache) (fc : conv) : vec := swap_if fc (c_f1 c).
Definition GetLinkReactionForceOnNode2 (c : cache) (fc : conv) : vec := swap_if fc (c_f2 c).
Definition GetLinkReactionTorqueOnNode1 (c : cache) (fc : conv) : vec := swap_if fc (c_t1 c).
Definition GetLinkReactionTorqueOnNode2 (c : cache) (fc : conv) : vec := swap_if fc (c_t2 c).
Definition GetLinkReactionForceOnBody1 (c : cache) (m1 : marker) (fc : conv) : vec := force_on_body m1 (GetLinkReactionForceOnNode1 c fc) fc.
Definition GetLinkReactionForceOnBody2 (c : cache) (m2 : marker) (fc : conv) : vec := force_on_body m2 (GetLinkReactionForceOnNode2 c fc) fc.
Definition GetLinkReactionTorqueOnBody1AtCOG (c : cache) (m1 : marker) (fc : conv) : vec :=
  torque_on_body m1 (GetLinkReactionForceOnNode1 c fc) (GetLinkReactionTorqueOnNode1 c fc) fc.
Definition GetLinkReactionTorqueOnBody2AtCOG (c : cache) (m2 : marker) (fc : conv) : vec :=
  torque_on_body m2 (GetLinkReactionForceOnNode2 c fc) (GetLinkReactionTorqueOnNode2 c fc) fc.

(** C_force and C_torque of the Chrono link *)
Record spring := Spring { s_force : vec; s_torque : vec }.
(** SetLinkForceTorqueOnBody2InFrame2AtOrigin2 593-609 *)
Definition SetLinkForceTorque (c : cache) (f t : vec) : spring :=
  Spring (vneg f) (vadd (vneg t) (vcross (vneg (GetPosition (c_12 c) NWU)) (vneg f))).
(** GetSpringDamper*OnNode1/2 623-645 *)
Definition GetSpringDamperForceOnNode1 (s : spring) (fc : conv) : vec := swap_if fc (vneg (s_force s)).
Definition GetSpringDamperTorqueOnNode1 (s : spring) (fc : conv) : vec := swap_if fc (vneg (s_torque s)).
Definition GetSpringDamperForceOnNode2 (s : spring) (fc : conv) : vec := swap_if fc (s_force s).
Definition GetSpringDamperTorqueOnNode2 (s : spring) (fc : conv) : vec := swap_if fc (s_torque s).
(** GetSpringDamper*OnBody1/2 647-676 *)
Definition GetSpringDamperForceOnBody1 (s : spring) (m1 : marker) (fc : conv) : vec := force_on_body m1 (GetSpringDamperForceOnNode1 s fc) fc.
Definition GetSpringDamperForceOnBody2 (s : spring) (m2 : marker) (fc : conv) : vec := force_on_body m2 (GetSpringDamperForceOnNode2 s fc) fc.
Definition GetSpringDamperTorqueOnBody1AtCOG (s : spring) (m1 : marker) (fc : conv) : vec :=
  torque_on_body m1 (GetSpringDamperForceOnNode1 s fc) (GetSpringDamperTorqueOnNode1 s fc) fc.
Definition GetSpringDamperTorqueOnBody2AtCOG (s : spring) (m2 : marker) (fc : conv) : vec :=
  torque_on_body m2 (GetSpringDamperForceOnNode2 s fc) (GetSpringDamperTorqueOnNode2 s fc) fc.

(** ** FrRevoluteLink, links_lib/FrRevoluteLink.cpp *)
(** rv_motor: there is no actuator, or one with its function (None: not set, Some x: FrConstantFunction(x)) *)
Record revolute := Rev { rv_k : R; rv_c : R; rv_ref : frame; rv_rest : R; rv_total : R; rv_w : R;
                         rv_spring : spring; rv_cache : cache; rv_motor : option (option R) }.
Definition no_cache : cache := Cache fident fident vzero vzero vzero vzero vzero vzero vzero vzero.
Definition new_revolute : revolute := Rev 0 0 fident 0 0 0 (Spring vzero vzero) no_cache None.
(** GetRestAngle 42, GetLinkAngle 50, GetRelativeLinkAngle 54, GetNbTurns 58, GetLinkAngularVelocity 62,
    GetLinkTorque 70, GetLinkPower 74 *)
Definition GetRestAngle (r : revolute) : R := rv_rest r.
Definition GetLinkAngle (r : revolute) : R := rv_total r - rv_rest r.
Definition GetRelativeLinkAngle (r : revolute) : R := fmod_2PI (rv_total r) - rv_rest r.
Definition GetNbTurns (r : revolute) : Z := trunc ((GetLinkAngle r - GetRelativeLinkAngle r) / (2 * PI)).
Definition GetLinkAngularVelocity (r : revolute) : R := rv_w r.
Definition GetLinkTorque (r : revolute) : R := vz (GetSpringDamperTorqueOnNode2 (rv_spring r) NWU).
Definition RGetLinkPower (r : revolute) : R := GetLinkAngularVelocity r * GetLinkTorque r.
(** GetUpdatedRelativeAngle 138-141 *)
Definition GetUpdatedRelativeAngle (c : cache) : R := Normalize__PI_PI (vz (GetRotationVector (frot (c_21 c)) NWU)).
(** The increment of Update 93-107 *)
Definition angle_increment (last updated : R) : R :=
  if Rlt_dec (Rabs (updated + 2 * PI - last)) (Rabs (updated - last)) then updated + 2 * PI - last
  else if Rlt_dec (Rabs (updated - 2 * PI - last)) (Rabs (updated - last)) then updated - 2 * PI - last
  else updated - last.
(** FrRevoluteLink::Update 89-116 and UpdateForces 118-130, called by FrLinkLockBase::Update 92-100 *)
Definition RUpdate (r : revolute) (m1 m2 : marker) (rf rt : vec) : revolute :=
  let c := GenerateCache m1 m2 rf rt in
  let last := GetRelativeLinkAngle r + rv_rest r in
  let total := rv_total r + angle_increment last (GetUpdatedRelativeAngle c) in
  let w := vz (GetAngularVelocityOfNode2WRTNode1 c NWU) in
  let s := match rv_motor r with
           | Some _ => Spring vzero vzero
           | None => SetLinkForceTorque c vzero (V 0 0 (rv_k r * (total - rv_rest r) + rv_c r * w))
           end in
  Rev (rv_k r) (rv_c r) (rv_ref r) (rv_rest r) total w s c (rv_motor r).
Inductive rev_op :=
| RSetSpringDamper (k c : R) | RSetRestAngle (a : R) | RSetReference | RStep (m1 m2 : marker) (rf rt : vec) | RMotorize | RClamp.
(** SetSpringDamper 32, SetRestAngle 37 and UpdateCache 143-149, SetThisConfigurationAsReference (FrLink.cpp
    334-337), Motorize 132, Clamp 162-175 *)
Definition rev_step (o : rev_op) (r : revolute) : revolute :=
  let with_ref f := Rev (rv_k r) (rv_c r) f (Normalize__PI_PI (GetAngle (frot f))) (rv_total r) (rv_w r) (rv_spring r) (rv_cache r) (rv_motor r) in
  let with_motor x := Rev (rv_k r) (rv_c r) (rv_ref r) (rv_rest r) (rv_total r) (rv_w r) (rv_spring r) (rv_cache r) (Some x) in
  match o with
  | RSetSpringDamper k c => Rev k c (rv_ref r) (rv_rest r) (rv_total r) (rv_w r) (rv_spring r) (rv_cache r) (rv_motor r)
  | RSetRestAngle a => with_ref (SetRotZ_RADIANS (rv_ref r) a NWU)
  | RSetReference => with_ref (c_21 (rv_cache r))
  | RStep m1 m2 rf rt => RUpdate r m1 m2 rf rt
  | RMotorize => with_motor None
  | RClamp => with_motor (Some (GetAngle (frot (c_21 (rv_cache r)))))
  end.
Fixpoint rev_run (l : list rev_op) (r : revolute) : revolute := match l with [] => r | o :: t => rev_run t (rev_step o r) end.

(** ** FrPrismaticLink, links_lib/FrPrismaticLink.cpp *)
Record prismatic := Pri { pr_k : R; pr_c : R; pr_ref : frame; pr_rest : R; pr_pos : R; pr_vel : R;
                          pr_spring : spring; pr_cache : cache; pr_motor : option (option R) }.
Definition new_prismatic : prismatic := Pri 0 0 fident 0 0 0 (Spring vzero vzero) no_cache None.
(** GetRestLength 42, GetLinkPosition 50, GetLinkVelocity 54, GetLinkForce 62, GetLinkPower 66 *)
Definition GetRestLength (r : prismatic) : R := pr_rest r.
Definition GetLinkPosition (r : prismatic) : R := pr_pos r - pr_rest r.
Definition GetLinkVelocity (r : prismatic) : R := pr_vel r.
Definition GetLinkForce (r : prismatic) : R := vz (GetSpringDamperForceOnNode2 (pr_spring r) NWU).
Definition PGetLinkPower (r : prismatic) : R := GetLinkVelocity r * GetLinkForce r.
(** Update 70-80, UpdateForces 82-91 *)
Definition PUpdate (r : prismatic) (m1 m2 : marker) (rf rt : vec) : prismatic :=
  let c := GenerateCache m1 m2 rf rt in
  let p := vz (GetNode2PositionWRTNode1 c NWU) in let v := vz (GetVelocityOfNode2WRTNode1 c NWU) in
  let s := match pr_motor r with
           | Some _ => Spring vzero vzero
           | None => SetLinkForceTorque c (V 0 0 (pr_k r * (p - pr_rest r) + pr_c r * v)) vzero
           end in
  Pri (pr_k r) (pr_c r) (pr_ref r) (pr_rest r) p v s c (pr_motor r).
Inductive pri_op :=
| PSetSpringDamper (k c : R) | PSetRestLength (a : R) | PSetReference | PStep (m1 m2 : marker) (rf rt : vec) | PMotorize | PClamp.
(** SetSpringDamper 32, SetRestLength 37 and UpdateCache 93-96, Motorize 98, Clamp 106-117 *)
Definition pri_step (o : pri_op) (r : prismatic) : prismatic :=
  let with_ref f := Pri (pr_k r) (pr_c r) f (GetZ f NWU) (pr_pos r) (pr_vel r) (pr_spring r) (pr_cache r) (pr_motor r) in
  let with_motor x := Pri (pr_k r) (pr_c r) (pr_ref r) (pr_rest r) (pr_pos r) (pr_vel r) (pr_spring r) (pr_cache r) (Some x) in
  match o with
  | PSetSpringDamper k c => Pri k c (pr_ref r) (pr_rest r) (pr_pos r) (pr_vel r) (pr_spring r) (pr_cache r) (pr_motor r)
  | PSetRestLength a => with_ref (SetZ (pr_ref r) a NWU)
  | PSetReference => with_ref (c_21 (pr_cache r))
  | PStep m1 m2 rf rt => PUpdate r m1 m2 rf rt
  | PMotorize => with_motor None
  | PClamp => with_motor (Some (vz (GetNode2PositionWRTNode1 (pr_cache r) NWU)))
  end.
Fixpoint pri_run (l : list pri_op) (r : prismatic) : prismatic := match l with [] => r | o :: t => pri_run t (pri_step o r) end.

(** ** Actuators, links_lib/actuators *)
(** FrLinearActuator::Initialize 55-68: the frame of the motor at a node, in the body, from its centre of gravity *)
Definition linear_motor_frame (m : marker) : frame := RotY_RADIANS (NGetFrameWRT_COG m) (PI / 2) NWU true.
(** Contract of ChLinkMotorLinear: the coordinate it controls is x of the motor frame of the first body it receives
    (node 2) in that of the second (node 1); the frames follow their bodies *)
Definition linear_motor_coordinate (b1 b2 : body) (m1 m2 : marker) : R :=
  vx (fpos (chmul (chinv (chmul (mf_frame (b_cog b1)) (linear_motor_frame m1))) (chmul (mf_frame (b_cog b2)) (linear_motor_frame m2)))).
(** GetMotorForceInNode and GetMotorTorqueInNode: FrLinearActuator.cpp 74-80, FrAngularActuator.cpp 71-77; x is the
    force or torque of the motor.  FrActuator.cpp 34-72 *)
Definition motor_in_node (x : R) : vec := V 0 0 x.
Definition GetMotorForceInBody1 (m1 : marker) (f : vec) (fc : conv) : vec := force_on_body m1 f fc.
Definition GetMotorForceInBody2 (m2 : marker) (f : vec) (fc : conv) : vec := vneg (force_on_body m2 f fc).
Definition GetMotorTorqueAtCOGInBody1 (m1 : marker) (f t : vec) (fc : conv) : vec := torque_on_body m1 f t fc.
Definition GetMotorTorqueAtCOGInBody2 (m2 : marker) (f t : vec) (fc : conv) : vec := vneg (torque_on_body m2 f t fc).

(** ** Disabled, broken, motorised: FrLink.cpp 294-332, FrActuator.cpp 22-32 *)
(** The flags of the Chrono link, of the link, and of the actuator if there is one (FrActuator::IsActive 30-32 is
    always true); the number of motors of the link that are in the system *)
Record flags := Flags { fl_disabled : bool; fl_broken : bool; fl_breakable : bool; fl_motor : option bool; fl_motors : nat }.
Definition new_flags : flags := Flags false false false None 0.
Inductive flag_op := FSetDisabled (x : bool) | FSetBreakable (x : bool) | FSetBroken (x : bool) | FMotorize | FClamp.
(** Motorize: FrRevoluteLink.cpp 132-136, FrPrismaticLink.cpp 98-103 (a former motor is not removed from the system);
    Clamp 162-175 and 106-117 (it is removed) *)
Definition flag_step (o : flag_op) (f : flags) : flags :=
  match o with
  | FSetDisabled x => Flags x (fl_broken f) (fl_breakable f) (match fl_motor f with Some _ => Some x | None => None end) (fl_motors f)
  | FSetBreakable x => Flags (fl_disabled f) (fl_broken f) x (fl_motor f) (fl_motors f)
  | FSetBroken x => if fl_breakable f then Flags (fl_disabled f) x (fl_breakable f) (match fl_motor f with Some _ => Some x | None => None end) (fl_motors f) else f
  | FMotorize => Flags (fl_disabled f) (fl_broken f) (fl_breakable f) (Some false) (S (fl_motors f))
  | FClamp => Flags (fl_disabled f) (fl_broken f) (fl_breakable f) (Some false)
                    (S (match fl_motor f with Some _ => pred (fl_motors f) | None => fl_motors f end))
  end.
Definition flag_run (l : list flag_op) : flags := fold_left (fun f o => flag_step o f) l new_flags.
(** Contract of ChLink::IsActive for a link of a running simulation: neither disabled nor broken *)
Definition link_active (f : flags) : bool := negb (fl_disabled f) && negb (fl_broken f).

(** ** Axes and planes: constraint/FrCGeometrical.cpp *)
Inductive axis_label := XAXIS | YAXIS | ZAXIS.
(** FrCAxis::GetDirectionInWorld 43-56, FrCPlane::GetNormaleInWorld 76-89 *)
Definition axis_in_world (m : marker) (a : axis_label) (fc : conv) : vec :=
  let q := frot (NGetFrameInWorld m) in
  match a with XAXIS => UQ_GetXAxis q fc | YAXIS => UQ_GetYAxis q fc | ZAXIS => UQ_GetZAxis q fc end.
(** GetDistanceToPointInWorld 91-95 *)
Definition GetDistanceToPointInWorld (m : marker) (a : axis_label) (p : vec) (fc : conv) : R :=
  vdot (vsub p (NGetPositionInWorld m fc)) (axis_in_world m a fc).
(** GetIntersectionWithLineInWorld 97-115 *)
Definition GetIntersectionWithLineInWorld (m : marker) (a : axis_label) (P0 P1 : vec) (fc : conv) : res vec :=
  let n := axis_in_world m a fc in let line := vsub P1 P0 in
  if Rlt_dec (/ 10 ^ 16) (vnorm line) then
    if Req_EM_T (vdot line n) 0 then Fails
    else Ok (vadd P0 (vscale (vdot (vsub (NGetPositionInWorld m fc) P0) n / vdot line n) (vsub P1 P0)))
  else Fails.
(** GetClosestPointOnPlaneInWorld 117-119 *)
Definition GetClosestPointOnPlaneInWorld (m : marker) (a : axis_label) (p : vec) (fc : conv) : res vec :=
  GetIntersectionWithLineInWorld m a p (vadd p (axis_in_world m a fc)) fc.
(** FrConstraintPointOnLine::Initialize, constraint/FrConstraint.cpp 306-322: the frame whose x axis is free
    (contract of ChLinkLockPointLine) *)
Definition point_on_line_frame (m : marker) (a : axis_label) : frame :=
  let f := NGetFrameInWorld m in
  match a with XAXIS => f | YAXIS => RotZ_RADIANS f (90 * DEG2RAD) NWU true | ZAXIS => RotY_RADIANS f (90 * DEG2RAD) NWU true end.

(** ** Locked degrees of freedom of a body: FrBody::InitializeLockedDOF, body/FrBody.cpp 1042-1071 *)
(** The bodies after the call (a new node on the body b and on the world body w) *)
Definition InitializeLockedDOF (w b : body) : body * body :=
  let n := length (b_marks b) in let b1 := NewNode b in
  let f := Frame_make (GetCOGPositionInWorld b1 NWU) (GetQuaternion b1) NWU in
  let b2 := set_marker b1 n (NSetFrameInWorld b1 f) in
  let k := length (b_marks w) in let w1 := NewNode w in
  (set_marker w1 k (NSetFrameInBody w1 f), b2).
