(** Model of the Morison elements: /repo/src/frydom/hydrodynamics/morison/FrMorisonModel.{h,cpp} and
    FrMorisonForce.cpp.  Line numbers refer to FrMorisonModel.cpp unless said otherwise.
    Simplifications: exact real arithmetic; all elements of a model are on one body (AddElement(model) does not
    check it); the wave field, its acceleration and the current are arbitrary functions of the position at the
    current time; the acceleration of the nodes is a parameter (accelerations of bodies are not modelled); the
    nodes of an element are markers of the body, so an element holds the index of its node in [b_marks]; time is
    not used by the code. *)
From Coq Require Import Reals List Bool.
From Verif Require Import SeaModel GeoModel BodyModel.
Import ListNotations.
Open Scope R_scope.

(** FLT_EPSILON = 2^-23 *)
Definition FLT_EPS : R := / 8388608.
(** struct MorisonCoeff, FrMorisonModel.h *)
Record coeff := Co { co_x : R; co_y : R }.
(** struct MorisonElementProperty, FrMorisonModel.h *)
Record property := Props { p_cd : coeff; p_ca : coeff; p_cf : R; p_diameter : R; p_length : R; p_volume : R }.
Definition new_property : property := Props (Co 0 0) (Co 0 0) 0 0 0 0.
(** The fields of FrMorisonElement: node, m_includeCurrent, m_extendedModel, m_force, m_torque *)
Record header := Header { h_node : nat; h_current : bool; h_extended : bool; h_force : vec; h_torque : vec }.
(** FrMorisonSingleElement and FrMorisonCompositeElement *)
Inductive element :=
| Tube (h : header) (p : property)
| Group (h : header) (p : property) (l : list element).
Definition header_of (e : element) : header := match e with Tube h _ => h | Group h _ _ => h end.
Definition set_header (e : element) (h : header) : element :=
  match e with Tube _ p => Tube h p | Group _ p l => Group h p l end.
(** FrMorisonElement::SetIncludeCurrent and SetExtendedModel, FrMorisonModel.h: for a composite element only the
    flag of the composite changes *)
Definition SetIncludeCurrent (e : element) (x : bool) : element :=
  let h := header_of e in set_header e (Header (h_node h) x (h_extended h) (h_force h) (h_torque h)).
Definition SetExtendedModel (e : element) (x : bool) : element :=
  let h := header_of e in set_header e (Header (h_node h) (h_current h) x (h_force h) (h_torque h)).
(** GetForceInWorld 59-63, GetTorqueInBody 65-67 *)
Definition MGetForceInWorld (e : element) (fc : conv) : vec := swap_if fc (h_force (header_of e)).
Definition MGetTorqueInBody (e : element) : vec := h_torque (header_of e).

(** The axes of SetFrame(body, posA, posB, vect), 35-46 *)
Definition frame_axes (A B vect : vec) : vec * vec * vec :=
  let e3 := vnormalize (vsub B A) in
  let c := vcross vect e3 in
  let e1 := if Rlt_dec FLT_EPS (Rabs (vnorm c)) then vnormalize c else V 1 0 0 in
  (e1, vnormalize (vcross e3 e1), e3).
(** make_shared<FrNode>("", body) followed by SetFrameInBody(frame), 49-57: the index of the node and the body *)
Definition node_with_frame (b : body) (f : frame) : nat * body :=
  let i := length (b_marks b) in let b1 := NewNode b in (i, set_marker b1 i (NSetFrameInBody b1 f)).
(** SetFrame(body, posA, posB, vect) 31-52; the assertions of FrRotation(e1, e2, e3, fc), with the tolerance
    [tol] of mathutils::IsClose, give [Fails] *)
Definition SetFrameAB (tol : R) (b : body) (A B vect : vec) : res (nat * body) :=
  let '(e1, e2, e3) := frame_axes A B vect in
  match Rot_SetAxes tol e1 e2 e3 NWU with
  | Some q => Ok (node_with_frame b (Frame_make (vscale (/ 2) (vadd A B)) q NWU))
  | None => Fails
  end.

(** The assertion of the setters 137-160: x >= -FLT_EPSILON or |x| <= FLT_EPSILON *)
Definition not_negative (x : R) : bool :=
  if Rle_dec (- FLT_EPS) x then true else if Rle_dec (Rabs x) FLT_EPS then true else false.
Definition check_props (ca cd : coeff) (cf d : R) : bool :=
  not_negative (co_x ca) && not_negative (co_y ca) && not_negative (co_x cd) && not_negative (co_y cd) &&
  not_negative cf && not_negative d.
(** SetVolume 166-168 *)
Definition SetVolume (p : property) : property :=
  Props (p_cd p) (p_ca p) (p_cf p) (p_diameter p) (p_length p) (PI / 4 * p_diameter p * p_diameter p * p_length p).
(** m_includeCurrent is not initialised by the constructors (FrMorisonModel.h): its value is [junk] *)
Definition new_header (junk : bool) (i : nat) : header := Header i junk false vzero vzero.
Definition new_tube (junk : bool) (i : nat) (ca cd : coeff) (cf d len : R) : element :=
  Tube (new_header junk i) (SetVolume (Props cd ca cf d len 0)).
(** FrMorisonSingleElement(body) 74-76: the node is at the centre of gravity, all the properties are 0 *)
Definition tube_default (junk : bool) (b : body) : body * element :=
  (NewNode b, Tube (new_header junk (length (b_marks b))) new_property).
(** FrMorisonSingleElement(body, posA, posB, ...) 78-92 *)
Definition tube_AB (tol : R) (junk : bool) (b : body) (A B : vec) (d : R) (ca cd : coeff) (cf : R) (perp : vec) : res (body * element) :=
  if check_props ca cd cf d then
    r <<- SetFrameAB tol b A B perp;
    Ok (snd r, new_tube junk (fst r) ca cd cf d (vnorm (vsub B A)))
  else Fails.
(** FrMorisonSingleElement(nodeA, nodeB, ...) 94-111, for two nodes of the body *)
Definition tube_nodes (tol : R) (junk : bool) (b : body) (i j : nat) (d : R) (ca cd : coeff) (cf : R) (perp : vec) : res (body * element) :=
  if check_props ca cd cf d then
    a <<- vat (b_marks b) i; c <<- vat (b_marks b) j;
    r <<- SetFrameAB tol b (NGetPositionInBody b a NWU) (NGetPositionInBody b c NWU) perp;
    Ok (snd r, new_tube junk (fst r) ca cd cf d (vnorm (vsub (NGetPositionInWorld c NWU) (NGetPositionInWorld a NWU))))
  else Fails.
(** FrMorisonSingleElement(body, frame, diameter, length, ...) 113-125 *)
Definition tube_frame (junk : bool) (b : body) (f : frame) (d len : R) (ca cd : coeff) (cf : R) : res (body * element) :=
  if check_props ca cd cf d then
    let r := node_with_frame b f in Ok (snd r, new_tube junk (fst r) ca cd cf d len)
  else Fails.
(** FrMorisonCompositeElement(body) 257-259, make_morison_model 23-25; (body, frame) 261-264 *)
Definition new_group (junk : bool) (b : body) : body * element :=
  (NewNode b, Group (new_header junk (length (b_marks b))) new_property []).
Definition new_group_frame (junk : bool) (b : body) (f : frame) : body * element :=
  let r := node_with_frame b f in (snd r, Group (new_header junk (fst r)) new_property []).

(** ** Operations of a composite element *)
Inductive group_op :=
| GAddModel (e : element)
| GAddNodes (junk : bool) (i j : nat) (d : R) (ca cd : coeff) (cf : R) (perp : vec)
| GAddNodesDefault (junk : bool) (i j : nat) (perp : vec)
| GAddTube (junk : nat -> bool) (A B : vec) (d : R) (ca cd : coeff) (cf : R) (n : nat) (perp : vec)
| GAddTubeDefault (junk : nat -> bool) (A B : vec) (n : nat) (perp : vec)
| GAddFrame (junk : bool) (f : frame) (len d : R) (ca cd : coeff) (cf : R)
| GAddFrameDefault (junk : bool) (f : frame) (len : R)
| GSetDrag (c : coeff) | GSetFriction (x : R) | GSetAddedMass (c : coeff) | GSetDiameter (x : R)
| GSetIncludeCurrent (x : bool) | GSetExtendedModel (x : bool).
(** The loop of AddElement(posA, posB, diameter, ca, cd, cf, n, perpendicular) 279-291: the sub-elements i, i+1,
    ..., i+k-1 of the division into n; dV is (posB - posA) / n, which is not used when n = 0 *)
Fixpoint split_from (tol : R) (junk : nat -> bool) (b : body) (A dV : vec) (d : R) (ca cd : coeff) (cf : R) (perp : vec) (i k : nat) : res (body * list element) :=
  match k with
  | O => Ok (b, [])
  | S k' => let pos := vadd A (vscale (INR i) dV) in
            r <<- tube_AB tol (junk i) b pos (vadd pos dV) d ca cd cf perp;
            t <<- split_from tol junk (fst r) A dV d ca cd cf perp (S i) k';
            Ok (fst t, snd r :: snd t)
  end.
Definition split_tube (tol : R) (junk : nat -> bool) (b : body) (A B : vec) (d : R) (ca cd : coeff) (cf : R) (n : nat) (perp : vec) : res (body * list element) :=
  split_from tol junk b A (vscale (/ INR n) (vsub B A)) d ca cd cf perp 0 n.
(** push_back on m_morison *)
Definition push (s : body * element) (l : list element) : body * element :=
  match snd s with Group h p l0 => (fst s, Group h p (l0 ++ l)) | Tube h p => (fst s, Tube h p) end.
Definition group_props (e : element) : property := match e with Tube _ p => p | Group _ p _ => p end.
Definition set_props (e : element) (p : property) : element := match e with Tube h _ => Tube h p | Group h _ l => Group h p l end.
(** AddElement 266-303, AddElement(model) FrMorisonModel.h, setters 305-319 *)
Definition group_step (tol : R) (o : group_op) (s : body * element) : res (body * element) :=
  let b := fst s in let e := snd s in let p := group_props e in
  match o with
  | GAddModel x => Ok (push s [x])
  | GAddNodes junk i j d ca cd cf perp => r <<- tube_nodes tol junk b i j d ca cd cf perp; Ok (push (fst r, e) [snd r])
  | GAddNodesDefault junk i j perp =>
      r <<- tube_nodes tol junk b i j (p_diameter p) (p_ca p) (p_cd p) (p_cf p) perp; Ok (push (fst r, e) [snd r])
  | GAddTube junk A B d ca cd cf n perp => r <<- split_tube tol junk b A B d ca cd cf n perp; Ok (push (fst r, e) (snd r))
  | GAddTubeDefault junk A B n perp =>
      r <<- split_tube tol junk b A B (p_diameter p) (p_ca p) (p_cd p) (p_cf p) n perp; Ok (push (fst r, e) (snd r))
  | GAddFrame junk f len d ca cd cf => r <<- tube_frame junk b f d len ca cd cf; Ok (push (fst r, e) [snd r])
  | GAddFrameDefault junk f len =>
      r <<- tube_frame junk b f (p_diameter p) len (p_ca p) (p_cd p) (p_cf p); Ok (push (fst r, e) [snd r])
  | GSetDrag c => Ok (b, set_props e (Props c (p_ca p) (p_cf p) (p_diameter p) (p_length p) (p_volume p)))
  | GSetFriction x => Ok (b, set_props e (Props (p_cd p) (p_ca p) x (p_diameter p) (p_length p) (p_volume p)))
  | GSetAddedMass c => Ok (b, set_props e (Props (p_cd p) c (p_cf p) (p_diameter p) (p_length p) (p_volume p)))
  | GSetDiameter x => Ok (b, set_props e (Props (p_cd p) (p_ca p) (p_cf p) x (p_length p) (p_volume p)))
  | GSetIncludeCurrent x => Ok (b, SetIncludeCurrent e x)
  | GSetExtendedModel x => Ok (b, SetExtendedModel e x)
  end.
Fixpoint group_run (tol : R) (l : list group_op) (s : body * element) : res (body * element) :=
  match l with [] => Ok s | o :: t => s1 <<- group_step tol o s; group_run tol t s1 end.

(** Initialize 240-246 and 321-328: an element is initialised before it receives the flag of the composite *)
Fixpoint Initialize (e : element) : res element :=
  match e with
  | Tube h p => if Rlt_dec FLT_EPS (p_length p) then if Rlt_dec FLT_EPS (p_diameter p) then Ok (Tube h (SetVolume p)) else Fails else Fails
  | Group h p l =>
      l' <<- (fix go (l : list element) : res (list element) :=
                match l with [] => Ok [] | x :: r => x' <<- Initialize x; r' <<- go r; Ok (SetExtendedModel x' (h_extended h) :: r') end) l;
      Ok (Group h p l')
  end.

(** ** Update *)
(** What the elements read in the environment: density of the water, wave velocity, wave acceleration, current *)
Record sea := SeaState { sea_rho : R; sea_wave : vec -> vec; sea_wave_acc : vec -> vec; sea_current : vec -> vec }.
(** Projection of lines 186-187 and 201-202: in the body, then in the node *)
Definition to_local (b : body) (m : marker) (v : vec) : vec :=
  ProjectVectorParentInFrame (NGetFrameInWorld m) (ProjectVectorParentInFrame (GetFrame b) v NWU) NWU.
(** GetFlowVelocity 171-188 *)
Definition GetFlowVelocity (s : sea) (b : body) (h : header) (m : marker) : vec :=
  let pos := NGetPositionInWorld m NWU in
  let v := vsub (sea_wave s pos) (NGetVelocityInWorld m NWU) in
  to_local b m (if h_current h then vadd v (sea_current s pos) else v).
(** GetFlowAcceleration 190-203; [acc] is the acceleration of the node in the world *)
Definition GetFlowAcceleration (s : sea) (acc : vec) (b : body) (m : marker) : vec :=
  to_local b m (vsub (sea_wave_acc s (NGetPositionInWorld m NWU)) acc).
(** Update 209-238: localForce *)
Definition local_force (s : sea) (acc : vec) (b : body) (h : header) (p : property) (m : marker) : vec :=
  let v := GetFlowVelocity s b h m in let rho := sea_rho s in
  let fx := 1 / 2 * co_x (p_cd p) * rho * p_diameter p * p_length p * vx v * Rabs (vx v) in
  let fy := 1 / 2 * co_y (p_cd p) * rho * p_diameter p * p_length p * vy v * Rabs (vy v) in
  let fz := 1 / 2 * p_cf p * rho * PI * p_diameter p * p_length p * vz v * Rabs (vz v) in
  if h_extended h then
    let a := GetFlowAcceleration s acc b m in
    V (fx + rho * (co_x (p_ca p) + 1) * p_volume p * vx a) (fy + rho * (co_y (p_ca p) + 1) * p_volume p * vy a) fz
  else V fx fy fz.
(** FrMorisonSingleElement::Update 209-238, FrMorisonCompositeElement::Update 330-340; [acc] is the acceleration
    of each node *)
Fixpoint MUpdate (s : sea) (acc : nat -> vec) (b : body) (e : element) : res element :=
  match e with
  | Tube h p =>
      m <<- vat (b_marks b) (h_node h);
      let fb := ProjectVectorFrameInParent (NGetFrameInWorld m) (local_force s (acc (h_node h)) b h p m) NWU in
      Ok (Tube (Header (h_node h) (h_current h) (h_extended h)
                 (ProjectVectorFrameInParent (GetFrame b) fb NWU)
                 (vcross (vsub (NGetPositionInBody b m NWU) (GetCOG b NWU)) fb)) p)
  | Group h p l =>
      l' <<- (fix go (l : list element) : res (list element) :=
                match l with [] => Ok [] | x :: r => x' <<- MUpdate s acc b x; r' <<- go r; Ok (x' :: r') end) l;
      Ok (Group (Header (h_node h) (h_current h) (h_extended h)
                   (fold_left (fun a x => vadd a (MGetForceInWorld x NWU)) l' vzero)
                   (fold_left (fun a x => vadd a (MGetTorqueInBody x)) l' vzero)) p l')
  end.
(** FrMorisonForce::Compute, FrMorisonForce.cpp 35-41: the force and the model after the call *)
Definition morison_compute (s : sea) (acc : nat -> vec) (b : body) (e : element) (f : force) : res (force * element) :=
  e' <<- MUpdate s acc b e;
  Ok (SetTorqueInBodyAtCOG (SetForceInWorldAtCOG f (MGetForceInWorld e' NWU) NWU) (MGetTorqueInBody e') NWU, e').
