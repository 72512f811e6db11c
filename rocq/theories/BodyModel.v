(** Model of rigid bodies, nodes and forces: core/body/FrBody.cpp, core/common/FrNode.cpp,
    core/force/FrForce.cpp.  Paths are relative to /repo/src/frydom.
    The Chrono classes ChBodyAuxRef, ChFrameMoving and ChMarker are third-party code not in /repo;
    their contracts are written out in the section "Chrono" and belong to the trusted base.
    Event logging is not modelled.  No proofs in this file. *)
From Coq Require Import Reals List.
From Verif Require Import GeoModel.
Open Scope R_scope.

(** ** Chrono (third party, trusted) *)
(** Quaternion with zero scalar part, and vector part of a quaternion *)
Definition qpure (v : vec) : quat := Q 0 (vx v) (vy v) (vz v).
Definition qim (q : quat) : vec := V (q1 q) (q2 q) (q3 q).
Definition qscale (k : R) (q : quat) : quat := Q (k * q0 q) (k * q1 q) (k * q2 q) (k * q3 q).
Definition qzero : quat := Q 0 0 0 0.
(** ChFrameMoving: a frame with the time derivatives of its position and of its quaternion
    (accelerations are not modelled). *)
Record mframe := MF { mf_frame : frame; mf_vel : vec; mf_qdt : quat }.
(** ChFrameMoving::GetWvel_par: angular velocity in parent axes, 2 Im(q_dt conj(q)) *)
Definition Wvel_par (m : mframe) : vec := vscale 2 (qim (qmul (mf_qdt m) (qconj (frot (mf_frame m))))).
(** ChFrameMoving::SetWvel_par: q_dt := 1/2 (0,w) q *)
Definition SetWvel_par (m : mframe) (w : vec) : mframe :=
  MF (mf_frame m) (mf_vel m) (qscale (/ 2) (qmul (qpure w) (frot (mf_frame m)))).
(** ChFrameMoving::PointSpeedLocalToParent *)
Definition PointSpeed (m : mframe) (p : vec) : vec :=
  vadd (mf_vel m) (vscale 2 (qim (qmul (qmul (mf_qdt m) (qpure p)) (qconj (frot (mf_frame m)))))).
(** ChFrameMoving::TransformLocalToParent of a frame that does not move in the local frame *)
Definition mf_mul (m : mframe) (f : frame) : mframe :=
  MF (chmul (mf_frame m) f) (PointSpeed m (fpos f)) (qmul (mf_qdt m) (frot f)).
(** ChMarker: coordinates relative to the COG frame of the body; cached absolute moving frame *)
Record marker := Mk { mk_rel : frame; mk_abs : mframe }.
(** ChBodyAuxRef: moving COG frame (the base class), auxref_to_cog, cached auxref_to_abs, markers *)
Record body := Body { b_cog : mframe; b_aux : frame; b_ref : mframe; b_marks : list marker }.
Definition newbody : body := Body (MF fident vzero qzero) fident (MF fident vzero qzero) nil.
(** ChMarker::UpdateState *)
Definition marker_update (c : mframe) (m : marker) : marker := Mk (mk_rel m) (mf_mul c (mk_rel m)).
(** ChMarker::Impose_Rel_Coord, ::Impose_Abs_Coord *)
Definition Impose_Rel_Coord (c : mframe) (f : frame) : marker := Mk f (mf_mul c f).
Definition Impose_Abs_Coord (c : mframe) (f : frame) : marker := Impose_Rel_Coord c (chmul (chinv (mf_frame c)) f).
(** ChBodyAuxRef::SetFrame_REF_to_abs: moves the COG frame, its velocities are kept; the cached
    auxref_to_abs is assigned a frame without velocity *)
Definition SetFrame_REF_to_abs (b : body) (f : frame) : body :=
  Body (MF (chmul f (chinv (b_aux b))) (mf_vel (b_cog b)) (mf_qdt (b_cog b))) (b_aux b)
       (MF f vzero qzero) (b_marks b).
(** ChBodyAuxRef::SetFrame_COG_to_REF: the reference frame stays where it is, the markers stay
    where they are with respect to it *)
Definition SetFrame_COG_to_REF (b : body) (mloc : frame) : body :=
  let tmpref := mf_mul (b_cog b) (b_aux b) in
  let newcog := mf_mul tmpref mloc in
  let aux := chinv mloc in
  let oldnew := chmul (chinv (mf_frame newcog)) (mf_frame (b_cog b)) in
  Body newcog aux (mf_mul newcog aux)
       (map (fun m => Mk (chmul oldnew (mk_rel m)) (mk_abs m)) (b_marks b)).
(** ChBodyAuxRef::Update: cached auxref_to_abs := cog * auxref_to_cog *)
Definition Update (b : body) : body := Body (b_cog b) (b_aux b) (mf_mul (b_cog b) (b_aux b)) (b_marks b).
(** ChBody::UpdateMarkers *)
Definition UpdateMarkers (b : body) : body :=
  Body (b_cog b) (b_aux b) (b_ref b) (map (marker_update (b_cog b)) (b_marks b)).
(** ChFrame::SetRot on the COG frame; ChFrameMoving::SetCoord_dt *)
Definition SetRot (b : body) (q : quat) : body :=
  Body (MF (Fr (fpos (mf_frame (b_cog b))) q) (mf_vel (b_cog b)) (mf_qdt (b_cog b))) (b_aux b) (b_ref b) (b_marks b).
Definition SetCoord_dt (b : body) (v : vec) (qdt : quat) : body :=
  Body (MF (mf_frame (b_cog b)) v qdt) (b_aux b) (b_ref b) (b_marks b).

(** ** FrBody: pose (core/body/FrBody.cpp) *)

(** FrBodyBase::UpdateAfterMove 58-71 *)
Definition UpdateAfterMove (b : body) : body :=
  let auxref_to_abs := mf_mul (b_cog b) (b_aux b) in
  UpdateMarkers (Update (SetFrame_REF_to_abs b (mf_frame auxref_to_abs))).
(** SetCOG 603-611 *)
Definition SetCOG (b : body) (p : vec) (fc : conv) : body :=
  SetFrame_COG_to_REF b (SetPosition fident p fc).
(** GetCOG 613-617 *)
Definition GetCOG (b : body) (fc : conv) : vec := swap_if fc (fpos (chinv (b_aux b))).
(** GetPosition 619-623 *)
Definition BGetPosition (b : body) (fc : conv) : vec := swap_if fc (fpos (mf_frame (b_ref b))).
(** GetQuaternion 659-661 (the rotation of the COG frame) *)
Definition GetQuaternion (b : body) : quat := frot (mf_frame (b_cog b)).
(** GetFrame 678-683 *)
Definition GetFrame (b : body) : frame :=
  SetRotation (SetPosition fident (BGetPosition b NWU) NWU) (GetQuaternion b).
(** SetPosition 629-642 *)
Definition BSetPosition (b : body) (p : vec) (fc : conv) : body :=
  UpdateAfterMove (SetFrame_REF_to_abs b (SetPosition (GetFrame b) p fc)).
(** SetRotation 663-676 *)
Definition BSetRotation (b : body) (q : quat) : body :=
  let bodyWorldPos := BGetPosition b NWU in BSetPosition (SetRot b q) bodyWorldPos NWU.
(** SetFrame 685-688 *)
Definition BSetFrame (b : body) (f : frame) : body :=
  BSetRotation (BSetPosition b (GetPosition f NWU) NWU) (frot f).
(** ProjectVectorInWorld, ProjectVectorInBody, FrBody.h 801-835 *)
Definition ProjectVectorInWorld (b : body) (v : vec) (fc : conv) : vec := UQ_Rotate (GetQuaternion b) v fc.
Definition ProjectVectorInBody (b : body) (v : vec) (fc : conv) : vec := UQ_Rotate (UQ_Inverse (GetQuaternion b)) v fc.
(** GetPointPositionInWorld 701-703, GetPointPositionInBody 705-707, GetCOGPositionInWorld 709-713 *)
Definition GetPointPositionInWorld (b : body) (p : vec) (fc : conv) : vec :=
  vadd (BGetPosition b fc) (ProjectVectorInWorld b p fc).
Definition GetPointPositionInBody (b : body) (p : vec) (fc : conv) : vec :=
  ProjectVectorInBody b (vsub p (BGetPosition b fc)) fc.
Definition GetCOGPositionInWorld (b : body) (fc : conv) : vec := swap_if fc (fpos (mf_frame (b_cog b))).
(** GetFrameAtPoint 690-695, GetFrameAtCOG 697-699 *)
Definition GetFrameAtPoint (b : body) (p : vec) (fc : conv) : frame :=
  SetRotation (SetPosition fident (GetPointPositionInWorld b p fc) fc) (GetQuaternion b).
Definition GetFrameAtCOG (b : body) (fc : conv) : frame := GetFrameAtPoint b (GetCOG b fc) fc.
(** TranslateInWorld 736-741, TranslateInBody 747-752 *)
Definition BTranslateInWorld (b : body) (t : vec) (fc : conv) : body :=
  let refFrame := GetFrame b in
  UpdateAfterMove (SetFrame_REF_to_abs b (SetPosition refFrame (vadd (GetPosition refFrame fc) t) fc)).
Definition BTranslateInBody (b : body) (t : vec) (fc : conv) : body :=
  let refFrame := GetFrame b in
  UpdateAfterMove (SetFrame_REF_to_abs b
    (SetPosition refFrame (vadd (GetPosition refFrame fc) (ProjectVectorInWorld b t fc)) fc)).
(** SetPositionOfBodyPoint 728-734 *)
Definition SetPositionOfBodyPoint (b : body) (bodyPoint worldPos : vec) (fc : conv) : body :=
  BTranslateInWorld b (vsub worldPos (GetPointPositionInWorld b bodyPoint fc)) fc.
(** Rotate 758-764 *)
Definition BRotate (b : body) (q : quat) : body := BSetRotation b (UQ_mul (GetQuaternion b) q).
(** RotateAroundPointInWorld 774-778, RotateAroundPointInBody 780-784, RotateAroundCOG 786-792 *)
Definition RotateAroundPointInWorld (b : body) (q : quat) (worldPos : vec) (fc : conv) : body :=
  let bodyPos := GetPointPositionInBody b worldPos fc in
  SetPositionOfBodyPoint (BRotate b q) bodyPos worldPos fc.
Definition RotateAroundPointInBody (b : body) (q : quat) (bodyPos : vec) (fc : conv) : body :=
  let worldPos := GetPointPositionInWorld b bodyPos fc in
  SetPositionOfBodyPoint (BRotate b q) bodyPos worldPos fc.
Definition RotateAroundCOG (b : body) (q : quat) (fc : conv) : body :=
  RotateAroundPointInBody b q (GetCOG b fc) fc.

(** ** FrBody: velocities *)

(** GetLinearVelocityInWorld 804-808, GetVelocityInBody 810-812, GetCOGLinearVelocityInWorld 828-832,
    GetCOGVelocityInBody 834-836 *)
Definition GetLinearVelocityInWorld (b : body) (fc : conv) : vec := swap_if fc (mf_vel (b_ref b)).
Definition GetVelocityInBody (b : body) (fc : conv) : vec := ProjectVectorInBody b (GetLinearVelocityInWorld b fc) fc.
Definition GetCOGLinearVelocityInWorld (b : body) (fc : conv) : vec := swap_if fc (mf_vel (b_cog b)).
Definition GetCOGVelocityInBody (b : body) (fc : conv) : vec := ProjectVectorInBody b (GetCOGLinearVelocityInWorld b fc) fc.
(** GetAngularVelocityInWorld 888-892, InBody 894-896 *)
Definition BGetAngularVelocityInWorld (b : body) (fc : conv) : vec := swap_if fc (Wvel_par (b_cog b)).
Definition BGetAngularVelocityInBody (b : body) (fc : conv) : vec := ProjectVectorInBody b (BGetAngularVelocityInWorld b fc) fc.
(** SetVelocityInWorldNoRotation 814-822, InBody 824-826 *)
Definition SetVelocityInWorldNoRotation (b : body) (v : vec) (fc : conv) : body :=
  UpdateAfterMove (SetCoord_dt b (swap_if fc v) qzero).
Definition SetVelocityInBodyNoRotation (b : body) (v : vec) (fc : conv) : body :=
  SetVelocityInWorldNoRotation b (ProjectVectorInWorld b v fc) fc.
(** SetAngularVelocityInWorld 871-876, InBody 884-886 *)
Definition SetAngularVelocityInWorld (b : body) (w : vec) (fc : conv) : body :=
  UpdateAfterMove (Body (SetWvel_par (b_cog b) (swap_if fc w)) (b_aux b) (b_ref b) (b_marks b)).
Definition SetAngularVelocityInBody (b : body) (w : vec) (fc : conv) : body :=
  SetAngularVelocityInWorld b (ProjectVectorInWorld b w fc) fc.
(** GetVelocityInBodyAtPointInBody 935-939, InWorldAtPointInBody 926-928, InWorldAtPointInWorld 921-924,
    InBodyAtPointInWorld 930-933 *)
Definition GetVelocityInBodyAtPointInBody (b : body) (p : vec) (fc : conv) : vec :=
  vadd (GetVelocityInBody b fc) (vcross (BGetAngularVelocityInBody b fc) p).
Definition GetVelocityInWorldAtPointInBody (b : body) (p : vec) (fc : conv) : vec :=
  ProjectVectorInWorld b (GetVelocityInBodyAtPointInBody b p fc) fc.
Definition GetVelocityInWorldAtPointInWorld (b : body) (p : vec) (fc : conv) : vec :=
  GetVelocityInWorldAtPointInBody b (GetPointPositionInBody b p fc) fc.
Definition GetVelocityInBodyAtPointInWorld (b : body) (p : vec) (fc : conv) : vec :=
  GetVelocityInBodyAtPointInBody b (GetPointPositionInBody b p fc) fc.
(** SetGeneralizedVelocityInBodyAtPointInBody 986-993, InWorldAtPointInBody 973-978,
    InWorldAtPointInWorld 967-971, InBodyAtPointInWorld 980-984 *)
Definition SetGenVelInBodyAtPointInBody (b : body) (p v w : vec) (fc : conv) : body :=
  let PG := vsub (GetCOG b fc) p in
  let cogVel := vadd v (vcross w PG) in
  SetAngularVelocityInBody (SetVelocityInBodyNoRotation b cogVel fc) w fc.
Definition SetGenVelInWorldAtPointInBody (b : body) (p v w : vec) (fc : conv) : body :=
  SetGenVelInBodyAtPointInBody b p (ProjectVectorInBody b v fc) (ProjectVectorInBody b w fc) fc.
Definition SetGenVelInWorldAtPointInWorld (b : body) (p v w : vec) (fc : conv) : body :=
  SetGenVelInWorldAtPointInBody b (GetPointPositionInBody b p fc) v w fc.
Definition SetGenVelInBodyAtPointInWorld (b : body) (p v w : vec) (fc : conv) : body :=
  SetGenVelInBodyAtPointInBody b (GetPointPositionInBody b p fc) v w fc.
(** SetGeneralizedVelocityInWorld 794-797, InBody 799-802 *)
Definition SetGenVelInWorld (b : body) (v w : vec) (fc : conv) : body := SetGenVelInWorldAtPointInBody b vzero v w fc.
Definition SetGenVelInBody (b : body) (v w : vec) (fc : conv) : body := SetGenVelInBodyAtPointInBody b vzero v w fc.

(** ** FrNode (core/common/FrNode.cpp); a node is the index of its marker *)

(** Node update of one marker; out of range indices do not exist in the program and are ignored. *)
Fixpoint upd (l : list marker) (i : nat) (m : marker) : list marker :=
  match l, i with
  | nil, _ => nil
  | _ :: t, O => m :: t
  | h :: t, S j => h :: upd t j m
  end.
Definition set_marker (b : body) (i : nat) (m : marker) : body := Body (b_cog b) (b_aux b) (b_ref b) (upd (b_marks b) i m).
(** FrBody::NewNode / FrNode constructor 36-47: a marker at the COG frame *)
Definition NewNode (b : body) : body :=
  Body (b_cog b) (b_aux b) (b_ref b) (b_marks b ++ Impose_Rel_Coord (b_cog b) fident :: nil).
(** GetFrameInWorld 87-89, GetFrameWRT_COG_InBody 99-104, GetFrameInBody 91-97 *)
Definition NGetFrameInWorld (m : marker) : frame := mf_frame (mk_abs m).
Definition NGetFrameWRT_COG (m : marker) : frame := Frame_make (fpos (mk_rel m)) (frot (mk_rel m)) NWU.
Definition NGetFrameInBody (b : body) (m : marker) : frame := TranslateInParent (NGetFrameWRT_COG m) (GetCOG b NWU) NWU.
(** SetFrameInBody 106-113, SetFrameInWorld 115-118 *)
Definition NSetFrameInBody (b : body) (f : frame) : marker :=
  Impose_Rel_Coord (b_cog b) (Fr (vsub (GetPosition f NWU) (GetCOG b NWU)) (frot f)).
Definition NSetFrameInWorld (b : body) (f : frame) : marker := Impose_Abs_Coord (b_cog b) f.
(** SetPositionInBody 120-124, SetPositionInWorld 126-130 *)
Definition NSetPositionInBody (b : body) (m : marker) (p : vec) (fc : conv) : marker :=
  NSetFrameInBody b (SetPosition (NGetFrameInBody b m) p fc).
Definition NSetPositionInWorld (b : body) (m : marker) (p : vec) (fc : conv) : marker :=
  NSetFrameInWorld b (SetPosition (NGetFrameInWorld m) p fc).
(** TranslateInBody 132-136: uses TranslateInFrame; TranslateInWorld 148-152 *)
Definition NTranslateInBody (b : body) (m : marker) (t : vec) (fc : conv) : marker :=
  NSetFrameInBody b (TranslateInFrame (NGetFrameInBody b m) t fc).
Definition NTranslateInWorld (b : body) (m : marker) (t : vec) (fc : conv) : marker :=
  NSetFrameInWorld b (TranslateInParent (NGetFrameInWorld m) t fc).
(** SetOrientationInBody 168-172 *)
Definition NSetOrientationInBody (b : body) (m : marker) (q : quat) : marker :=
  NSetFrameInBody b (SetRotation (NGetFrameInBody b m) q).
(** RotateInBody 178-182, RotateInWorld 188-192: both use RotateInFrame *)
Definition NRotateInBody (b : body) (m : marker) (q : quat) : marker :=
  NSetFrameInBody b (RotateInFrame (NGetFrameInBody b m) q).
Definition NRotateInWorld (b : body) (m : marker) (q : quat) : marker :=
  NSetFrameInWorld b (RotateInFrame (NGetFrameInWorld m) q).
(** GetNodePositionInBody 225-227, GetPositionInWorld 230-232 *)
Definition NGetPositionInBody (b : body) (m : marker) (fc : conv) : vec := GetPosition (NGetFrameInBody b m) fc.
Definition NGetPositionInWorld (m : marker) (fc : conv) : vec := GetPosition (NGetFrameInWorld m) fc.
(** GetVelocityInWorld 238-242, GetAngularVelocityInWorld 248-253 (ChMarker::GetAbsCoord_dt, GetAbsWvel) *)
Definition NGetVelocityInWorld (m : marker) (fc : conv) : vec := swap_if fc (mf_vel (mk_abs m)).
Definition NGetAngularVelocityInWorld (m : marker) (fc : conv) : vec := swap_if fc (Wvel_par (mk_abs m)).

(** ** The API as one instruction set *)
Inductive body_op :=
| BOSetCOG (p : vec) (fc : conv)
| BOSetPosition (p : vec) (fc : conv)
| BOSetRotation (q : quat)
| BOSetFrame (f : frame)
| BOSetPositionOfBodyPoint (bodyPoint worldPos : vec) (fc : conv)
| BOTranslateInWorld (t : vec) (fc : conv)
| BOTranslateInBody (t : vec) (fc : conv)
| BORotate (q : quat)
| BORotateAroundPointInWorld (q : quat) (p : vec) (fc : conv)
| BORotateAroundPointInBody (q : quat) (p : vec) (fc : conv)
| BORotateAroundCOG (q : quat) (fc : conv)
| BOSetVelocityInWorldNoRotation (v : vec) (fc : conv)
| BOSetAngularVelocityInWorld (w : vec) (fc : conv)
| BOSetGenVelInBodyAtPointInBody (p v w : vec) (fc : conv)
| BONewNode
| BONodeSetFrameInBody (i : nat) (f : frame)
| BONodeSetFrameInWorld (i : nat) (f : frame)
| BONodeSetPositionInBody (i : nat) (p : vec) (fc : conv)
| BONodeSetPositionInWorld (i : nat) (p : vec) (fc : conv)
| BONodeTranslateInBody (i : nat) (t : vec) (fc : conv)
| BONodeTranslateInWorld (i : nat) (t : vec) (fc : conv)
| BONodeSetOrientationInBody (i : nat) (q : quat)
| BONodeRotateInBody (i : nat) (q : quat)
| BONodeRotateInWorld (i : nat) (q : quat).
(** Method call on node i *)
Definition on_node (b : body) (i : nat) (k : marker -> marker) : body :=
  match nth_error (b_marks b) i with Some m => set_marker b i (k m) | None => b end.
(** The method called for each instruction (line numbers above). *)
Definition body_step (o : body_op) (b : body) : body :=
  match o with
  | BOSetCOG p fc => SetCOG b p fc
  | BOSetPosition p fc => BSetPosition b p fc
  | BOSetRotation q => BSetRotation b q
  | BOSetFrame f => BSetFrame b f
  | BOSetPositionOfBodyPoint p w fc => SetPositionOfBodyPoint b p w fc
  | BOTranslateInWorld t fc => BTranslateInWorld b t fc
  | BOTranslateInBody t fc => BTranslateInBody b t fc
  | BORotate q => BRotate b q
  | BORotateAroundPointInWorld q p fc => RotateAroundPointInWorld b q p fc
  | BORotateAroundPointInBody q p fc => RotateAroundPointInBody b q p fc
  | BORotateAroundCOG q fc => RotateAroundCOG b q fc
  | BOSetVelocityInWorldNoRotation v fc => SetVelocityInWorldNoRotation b v fc
  | BOSetAngularVelocityInWorld w fc => SetAngularVelocityInWorld b w fc
  | BOSetGenVelInBodyAtPointInBody p v w fc => SetGenVelInBodyAtPointInBody b p v w fc
  | BONewNode => NewNode b
  | BONodeSetFrameInBody i f => on_node b i (fun _ => NSetFrameInBody b f)
  | BONodeSetFrameInWorld i f => on_node b i (fun _ => NSetFrameInWorld b f)
  | BONodeSetPositionInBody i p fc => on_node b i (fun m => NSetPositionInBody b m p fc)
  | BONodeSetPositionInWorld i p fc => on_node b i (fun m => NSetPositionInWorld b m p fc)
  | BONodeTranslateInBody i t fc => on_node b i (fun m => NTranslateInBody b m t fc)
  | BONodeTranslateInWorld i t fc => on_node b i (fun m => NTranslateInWorld b m t fc)
  | BONodeSetOrientationInBody i q => on_node b i (fun m => NSetOrientationInBody b m q)
  | BONodeRotateInBody i q => on_node b i (fun m => NRotateInBody b m q)
  | BONodeRotateInWorld i q => on_node b i (fun m => NRotateInWorld b m q)
  end.
Fixpoint body_run (l : list body_op) (b : body) : body :=
  match l with nil => b | o :: t => body_run t (body_step o b) end.

(** ** FrForce (core/force/FrForce.cpp): force in world axes and torque at COG in body axes, NWU *)
Record force := Force { f_force : vec; f_torque : vec }.
(** SetForceInWorldAtCOG 330-342, SetTorqueInBodyAtCOG 381-393 *)
Definition SetForceInWorldAtCOG (s : force) (f : vec) (fc : conv) : force := Force (swap_if fc f) (f_torque s).
Definition SetTorqueInBodyAtCOG (s : force) (t : vec) (fc : conv) : force := Force (f_force s) (swap_if fc t).
(** GetForceInWorld 178-190, GetForceInBody 199-208, GetTorqueInBodyAtCOG 235-247, InWorldAtCOG 217-226 *)
Definition GetForceInWorld (s : force) (fc : conv) : vec := swap_if fc (f_force s).
Definition GetForceInBody (b : body) (s : force) (fc : conv) : vec := ProjectVectorInBody b (GetForceInWorld s fc) fc.
Definition GetTorqueInBodyAtCOG (s : force) (fc : conv) : vec := swap_if fc (f_torque s).
Definition GetTorqueInWorldAtCOG (b : body) (s : force) (fc : conv) : vec := ProjectVectorInWorld b (GetTorqueInBodyAtCOG s fc) fc.
(** GetTorqueInWorldAtPointInWorld 256-263, ...AtPointInBody 273-277, GetTorqueInBodyAtPointInWorld 287-292,
    ...AtPointInBody 302-307 *)
Definition GetTorqueInWorldAtPointInWorld (b : body) (s : force) (p : vec) (fc : conv) : vec :=
  let PG := vsub (GetCOGPositionInWorld b fc) p in
  vadd (GetTorqueInWorldAtCOG b s fc) (vcross PG (GetForceInWorld s fc)).
Definition GetTorqueInWorldAtPointInBody (b : body) (s : force) (p : vec) (fc : conv) : vec :=
  GetTorqueInWorldAtPointInWorld b s (GetPointPositionInWorld b p fc) fc.
Definition GetTorqueInBodyAtPointInWorld (b : body) (s : force) (p : vec) (fc : conv) : vec :=
  ProjectVectorInBody b (GetTorqueInWorldAtPointInWorld b s p fc) fc.
Definition GetTorqueInBodyAtPointInBody (b : body) (s : force) (p : vec) (fc : conv) : vec :=
  ProjectVectorInBody b (GetTorqueInWorldAtPointInBody b s p fc) fc.
(** SetForceInWorldAtPointInBody 344-355, ...AtPointInWorld 357-362, SetForceInBody 364-366,
    SetForceInBodyAtPointInBody 368-371, ...AtPointInWorld 373-375 *)
Definition SetForceInWorldAtPointInBody (b : body) (s : force) (f p : vec) (fc : conv) : force :=
  let s1 := SetForceInWorldAtCOG s f fc in
  let GP := vsub p (GetCOG b fc) in
  SetTorqueInBodyAtCOG s1 (vcross GP (ProjectVectorInBody b f fc)) fc.
Definition SetForceInWorldAtPointInWorld (b : body) (s : force) (f p : vec) (fc : conv) : force :=
  SetForceInWorldAtPointInBody b s f (GetPointPositionInBody b p fc) fc.
Definition SetForceInBody (b : body) (s : force) (f : vec) (fc : conv) : force :=
  SetForceInWorldAtCOG s (ProjectVectorInWorld b f fc) fc.
Definition SetForceInBodyAtPointInBody (b : body) (s : force) (f p : vec) (fc : conv) : force :=
  SetForceInWorldAtPointInBody b s (ProjectVectorInWorld b f fc) p fc.
Definition SetForceInBodyAtPointInWorld (b : body) (s : force) (f p : vec) (fc : conv) : force :=
  SetForceInWorldAtPointInWorld b s (ProjectVectorInWorld b f fc) p fc.
(** SetTorqueInWorldAtCOG 377-379 *)
Definition SetTorqueInWorldAtCOG (b : body) (s : force) (t : vec) (fc : conv) : force :=
  SetTorqueInBodyAtCOG s (ProjectVectorInBody b t fc) fc.
(** SetForceTorqueInWorldAtCOG 396-399, InBodyAtCOG 401-404, InWorldAtPointInBody 406-410,
    InWorldAtPointInWorld 412-416, InBodyAtPointInBody 418-422, InBodyAtPointInWorld 424-428 *)
Definition SetForceTorqueInWorldAtCOG (b : body) (s : force) (f t : vec) (fc : conv) : force :=
  SetTorqueInWorldAtCOG b (SetForceInWorldAtCOG s f fc) t fc.
Definition SetForceTorqueInBodyAtCOG (b : body) (s : force) (f t : vec) (fc : conv) : force :=
  SetTorqueInBodyAtCOG (SetForceInBody b s f fc) t fc.
Definition SetForceTorqueInWorldAtPointInBody (b : body) (s : force) (f t p : vec) (fc : conv) : force :=
  let s1 := SetForceInWorldAtPointInBody b s f p fc in
  SetTorqueInBodyAtCOG s1 (vadd (GetTorqueInBodyAtCOG s1 fc) (ProjectVectorInBody b t fc)) fc.
Definition SetForceTorqueInWorldAtPointInWorld (b : body) (s : force) (f t p : vec) (fc : conv) : force :=
  let s1 := SetForceInWorldAtPointInWorld b s f p fc in
  SetTorqueInBodyAtCOG s1 (vadd (GetTorqueInBodyAtCOG s1 fc) (ProjectVectorInBody b t fc)) fc.
Definition SetForceTorqueInBodyAtPointInBody (b : body) (s : force) (f t p : vec) (fc : conv) : force :=
  let s1 := SetForceInBodyAtPointInBody b s f p fc in
  SetTorqueInBodyAtCOG s1 (vadd (GetTorqueInBodyAtCOG s1 fc) t) fc.
Definition SetForceTorqueInBodyAtPointInWorld (b : body) (s : force) (f t p : vec) (fc : conv) : force :=
  let s1 := SetForceInBodyAtPointInWorld b s f p fc in
  SetTorqueInBodyAtCOG s1 (vadd (GetTorqueInBodyAtCOG s1 fc) t) fc.

(** FrForce::Update 438-445 ([compute] is the virtual method Compute; Force() and Torque() are zero
    vectors), FrForceBase::UpdateState 26-46 *)
Definition ForceUpdate (active : bool) (compute : force -> force) (b : body) (s : force) : force :=
  if active then compute s else SetForceTorqueInBodyAtCOG b s vzero vzero NWU.
Definition limit_to (limit : R) (v : vec) : vec :=
  let magn := vnorm v in if Rlt_dec limit magn then vscale (limit / magn) v else v.
Definition ForceUpdateState (active limited : bool) (flim tlim : R) (compute : force -> force) (b : body) (s : force) : force :=
  let s1 := ForceUpdate active compute b s in
  if limited then Force (limit_to flim (f_force s1)) (limit_to tlim (f_torque s1)) else s1.

(** The setters as one instruction set *)
Inductive force_op :=
| FOForceWorldCOG (f : vec) (fc : conv)
| FOForceBody (f : vec) (fc : conv)
| FOForceWorldPtBody (f p : vec) (fc : conv)
| FOForceWorldPtWorld (f p : vec) (fc : conv)
| FOForceBodyPtBody (f p : vec) (fc : conv)
| FOForceBodyPtWorld (f p : vec) (fc : conv)
| FOTorqueWorldCOG (t : vec) (fc : conv)
| FOTorqueBodyCOG (t : vec) (fc : conv)
| FOBothWorldCOG (f t : vec) (fc : conv)
| FOBothBodyCOG (f t : vec) (fc : conv)
| FOBothWorldPtBody (f t p : vec) (fc : conv)
| FOBothWorldPtWorld (f t p : vec) (fc : conv)
| FOBothBodyPtBody (f t p : vec) (fc : conv)
| FOBothBodyPtWorld (f t p : vec) (fc : conv).
(** The method called for each instruction *)
Definition force_step (b : body) (o : force_op) (s : force) : force :=
  match o with
  | FOForceWorldCOG f fc => SetForceInWorldAtCOG s f fc
  | FOForceBody f fc => SetForceInBody b s f fc
  | FOForceWorldPtBody f p fc => SetForceInWorldAtPointInBody b s f p fc
  | FOForceWorldPtWorld f p fc => SetForceInWorldAtPointInWorld b s f p fc
  | FOForceBodyPtBody f p fc => SetForceInBodyAtPointInBody b s f p fc
  | FOForceBodyPtWorld f p fc => SetForceInBodyAtPointInWorld b s f p fc
  | FOTorqueWorldCOG t fc => SetTorqueInWorldAtCOG b s t fc
  | FOTorqueBodyCOG t fc => SetTorqueInBodyAtCOG s t fc
  | FOBothWorldCOG f t fc => SetForceTorqueInWorldAtCOG b s f t fc
  | FOBothBodyCOG f t fc => SetForceTorqueInBodyAtCOG b s f t fc
  | FOBothWorldPtBody f t p fc => SetForceTorqueInWorldAtPointInBody b s f t p fc
  | FOBothWorldPtWorld f t p fc => SetForceTorqueInWorldAtPointInWorld b s f t p fc
  | FOBothBodyPtBody f t p fc => SetForceTorqueInBodyAtPointInBody b s f t p fc
  | FOBothBodyPtWorld f t p fc => SetForceTorqueInBodyAtPointInWorld b s f t p fc
  end.
