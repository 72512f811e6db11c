(** Specification vocabulary for bodies, nodes and forces (C17, C20, C21, C22): rigid motions of
    space, velocity fields and wrenches.  Written without reference to the functions of BodyModel;
    only the data types and the instruction sets are shared. *)
From Coq Require Import Reals List.
From Verif Require Import GeoModel GeoSpec BodyModel.
Open Scope R_scope.

(** ** Pose of a body and of its nodes *)
(** What a user sees of a body: where each point of the body is in the world ([bs_map], from body
    coordinates to world coordinates, NWU), where the centre of gravity is in the body, and for each
    node the map from node coordinates to body coordinates. *)
Record bstate := BS { bs_map : motion; bs_cog : vec; bs_nodes : list motion }.
Definition new_state : bstate := BS (fun x => x) origin nil.

Definition same_node (a b : option motion) : Prop :=
  match a, b with Some n, Some n' => forall x, n' x = n x | None, None => True | _, _ => False end.
Definition same_nodes (s s' : bstate) : Prop := forall i, same_node (nth_error (bs_nodes s) i) (nth_error (bs_nodes s') i).
(** Only node i changes, in the way described by P *)
Definition node_changes (s s' : bstate) (i : nat) (P : motion -> motion -> Prop) : Prop :=
  (forall j, j <> i -> same_node (nth_error (bs_nodes s) j) (nth_error (bs_nodes s') j)) /\
  match nth_error (bs_nodes s) i, nth_error (bs_nodes s') i with
  | Some n, Some n' => P n n' | None, None => True | _, _ => False end.
Definition moves (s s' : bstate) (h : vec -> vec) : Prop :=
  (forall x, bs_map s' x = h x) /\ bs_cog s' = bs_cog s /\ same_nodes s s'.
Definition unmoved (s s' : bstate) : Prop := (forall x, bs_map s' x = bs_map s x) /\ bs_cog s' = bs_cog s.
(** Orientation part of a motion: image of a vector *)
Definition turn (g : motion) (x : vec) : vec := minus3 (g x) (g origin).
Definition act (f : frame) (x : vec) : vec := plus3 (fpos f) (quat_action (frot f) x).

(** Meaning of each instruction *)
Definition body_means (o : body_op) (s s' : bstate) : Prop :=
  let g := bs_map s in
  match o with
  | BOSetCOG p fc => (forall x, bs_map s' x = g x) /\ bs_cog s' = convert fc p /\ same_nodes s s'
  | BOSetPosition p fc => moves s s' (fun x => plus3 (convert fc p) (turn g x))
  | BOSetRotation q => moves s s' (fun x => plus3 (g origin) (quat_action q x))
  | BOSetFrame f => moves s s' (act f)
  | BOSetPositionOfBodyPoint p w fc =>
      moves s s' (fun x => plus3 (g x) (minus3 (convert fc w) (g (convert fc p))))
  | BOTranslateInWorld t fc => moves s s' (fun x => plus3 (g x) (convert fc t))
  | BOTranslateInBody t fc => moves s s' (fun x => g (plus3 x (convert fc t)))
  | BORotate q => moves s s' (fun x => g (quat_action q x))
  | BORotateAroundPointInBody q p fc =>
      moves s s' (fun x => g (plus3 (convert fc p) (quat_action q (minus3 x (convert fc p)))))
  | BORotateAroundPointInWorld q w fc =>
      exists p, g p = convert fc w /\
      moves s s' (fun x => g (plus3 p (quat_action q (minus3 x p))))
  | BORotateAroundCOG q fc =>
      moves s s' (fun x => g (plus3 (bs_cog s) (quat_action q (minus3 x (bs_cog s)))))
  | BOSetVelocityInWorldNoRotation _ _ | BOSetAngularVelocityInWorld _ _ | BOSetGenVelInBodyAtPointInBody _ _ _ _ =>
      moves s s' g
  | BONewNode => unmoved s s' /\
      (forall i, (i < length (bs_nodes s))%nat -> same_node (nth_error (bs_nodes s) i) (nth_error (bs_nodes s') i)) /\
      length (bs_nodes s') = S (length (bs_nodes s)) /\
      exists n, nth_error (bs_nodes s') (length (bs_nodes s)) = Some n /\ forall x, n x = plus3 (bs_cog s) x
  | BONodeSetFrameInBody i f => unmoved s s' /\ node_changes s s' i (fun n n' => forall x, n' x = act f x)
  | BONodeSetFrameInWorld i f => unmoved s s' /\ node_changes s s' i (fun n n' => forall x, g (n' x) = act f x)
  | BONodeSetPositionInBody i p fc => unmoved s s' /\
      node_changes s s' i (fun n n' => forall x, n' x = plus3 (convert fc p) (turn n x))
  | BONodeSetPositionInWorld i p fc => unmoved s s' /\
      node_changes s s' i (fun n n' => forall x, g (n' x) = plus3 (convert fc p) (minus3 (g (n x)) (g (n origin))))
  | BONodeTranslateInBody i t fc => unmoved s s' /\
      node_changes s s' i (fun n n' => forall x, n' x = plus3 (n x) (convert fc t))
  | BONodeTranslateInWorld i t fc => unmoved s s' /\
      node_changes s s' i (fun n n' => forall x, g (n' x) = plus3 (g (n x)) (convert fc t))
  | BONodeSetOrientationInBody i q => unmoved s s' /\
      node_changes s s' i (fun n n' => forall x, n' x = plus3 (n origin) (quat_action q x))
  | BONodeRotateInBody i q => unmoved s s' /\
      node_changes s s' i (fun n n' => forall x, n' x = plus3 (n origin) (quat_action q (turn n x)))
  | BONodeRotateInWorld i q => unmoved s s' /\
      node_changes s s' i (fun n n' => forall x, g (n' x) = plus3 (g (n origin)) (quat_action q (minus3 (g (n x)) (g (n origin)))))
  end.
(** Arguments the API accepts: unit quaternions *)
Definition body_ok (o : body_op) : Prop :=
  match o with
  | BOSetRotation q | BORotate q | BORotateAroundPointInWorld q _ _ | BORotateAroundPointInBody q _ _
  | BORotateAroundCOG q _ | BONodeSetOrientationInBody _ q | BONodeRotateInBody _ q | BONodeRotateInWorld _ q => unitq q
  | BOSetFrame f | BONodeSetFrameInBody _ f | BONodeSetFrameInWorld _ f => unitq (frot f)
  | _ => True
  end.
(** The three node methods that do not have their meaning (see C17) *)
Definition in_node_axes (o : body_op) : Prop :=
  match o with BONodeTranslateInBody _ _ _ | BONodeRotateInBody _ _ | BONodeRotateInWorld _ _ => True | _ => False end.
Inductive body_ops_mean : list body_op -> bstate -> bstate -> Prop :=
| bom_nil : forall s, body_ops_mean nil s s
| bom_cons : forall o l s s1 s2, body_means o s s1 -> body_ops_mean l s1 s2 -> body_ops_mean (o :: l) s s2.

(** ** Wrenches: force and moment at a point, in world axes, NWU *)
Record wrench := W { w_force : vec; w_moment : vec; w_point : vec }.
Definition moment_of (w : wrench) (p : vec) : vec := plus3 (w_moment w) (cross3 (minus3 (w_point w) p) (w_force w)).

(** ** Reading a field of vectors attached to points *)
(** Four readers report the vector field U (world points and axes, NWU): the result in world or in
    body axes (first letter), the point given in world or in body (second letter), all in the given
    frame convention. *)
Definition point_field (g : motion) (U : vec -> vec) (WW WB BW BB : vec -> conv -> vec) : Prop :=
  (forall X fc, WW X fc = convert fc (U (convert fc X))) /\
  (forall p fc, WB p fc = convert fc (U (g (convert fc p)))) /\
  (forall X fc, turn g (convert fc (BW X fc)) = U (convert fc X)) /\
  (forall p fc, turn g (convert fc (BB p fc)) = U (g (convert fc p))).
(** Two readers report the vector u (world axes, NWU), in world and in body axes *)
Definition vector_read (g : motion) (u : vec) (RW RB : conv -> vec) : Prop :=
  (forall fc, RW fc = convert fc u) /\ (forall fc, turn g (convert fc (RB fc)) = u).
(** Rigid velocity field: velocity v at the point P, angular velocity w *)
Definition rigid_velocity (P v w : vec) (X : vec) : vec := plus3 v (cross3 w (minus3 X P)).

(** Meaning of the force setters: wrench after the call, given the motion g of the body, the world
    position G of the centre of gravity and the wrench before the call. *)
Definition force_means (g : motion) (G : vec) (o : force_op) (w : wrench) : wrench :=
  match o with
  | FOForceWorldCOG f fc => W (convert fc f) (moment_of w G) G
  | FOForceBody f fc => W (turn g (convert fc f)) (moment_of w G) G
  | FOForceWorldPtBody f p fc => W (convert fc f) origin (g (convert fc p))
  | FOForceWorldPtWorld f p fc => W (convert fc f) origin (convert fc p)
  | FOForceBodyPtBody f p fc => W (turn g (convert fc f)) origin (g (convert fc p))
  | FOForceBodyPtWorld f p fc => W (turn g (convert fc f)) origin (convert fc p)
  | FOTorqueWorldCOG t fc => W (w_force w) (convert fc t) G
  | FOTorqueBodyCOG t fc => W (w_force w) (turn g (convert fc t)) G
  | FOBothWorldCOG f t fc => W (convert fc f) (convert fc t) G
  | FOBothBodyCOG f t fc => W (turn g (convert fc f)) (turn g (convert fc t)) G
  | FOBothWorldPtBody f t p fc => W (convert fc f) (convert fc t) (g (convert fc p))
  | FOBothWorldPtWorld f t p fc => W (convert fc f) (convert fc t) (convert fc p)
  | FOBothBodyPtBody f t p fc => W (turn g (convert fc f)) (turn g (convert fc t)) (g (convert fc p))
  | FOBothBodyPtWorld f t p fc => W (turn g (convert fc f)) (turn g (convert fc t)) (convert fc p)
  end.
Fixpoint forces_mean (g : motion) (G : vec) (l : list force_op) (w : wrench) : wrench :=
  match l with nil => w | o :: t => forces_mean g G t (force_means g G o w) end.

(** Velocity setters as one instruction set, with the point, velocity and angular velocity they
    prescribe (world, NWU). *)
Inductive vel_op :=
| VOWorld (v w : vec) (fc : conv)
| VOBody (v w : vec) (fc : conv)
| VOWorldPtWorld (p v w : vec) (fc : conv)
| VOWorldPtBody (p v w : vec) (fc : conv)
| VOBodyPtWorld (p v w : vec) (fc : conv)
| VOBodyPtBody (p v w : vec) (fc : conv).
Definition vel_prescribed (g : motion) (o : vel_op) : vec * vec * vec :=
  match o with
  | VOWorld v w fc => (g origin, convert fc v, convert fc w)
  | VOBody v w fc => (g origin, turn g (convert fc v), turn g (convert fc w))
  | VOWorldPtWorld p v w fc => (convert fc p, convert fc v, convert fc w)
  | VOWorldPtBody p v w fc => (g (convert fc p), convert fc v, convert fc w)
  | VOBodyPtWorld p v w fc => (convert fc p, turn g (convert fc v), turn g (convert fc w))
  | VOBodyPtBody p v w fc => (g (convert fc p), turn g (convert fc v), turn g (convert fc w))
  end.
(** The API call performed for each velocity setter *)
Definition vel_run (b : body) (o : vel_op) : body :=
  match o with
  | VOWorld v w fc => SetGenVelInWorld b v w fc
  | VOBody v w fc => SetGenVelInBody b v w fc
  | VOWorldPtWorld p v w fc => SetGenVelInWorldAtPointInWorld b p v w fc
  | VOWorldPtBody p v w fc => SetGenVelInWorldAtPointInBody b p v w fc
  | VOBodyPtWorld p v w fc => SetGenVelInBodyAtPointInWorld b p v w fc
  | VOBodyPtBody p v w fc => SetGenVelInBodyAtPointInBody b p v w fc
  end.
(** Operations after which a spinning body keeps its velocity field moving along with it: those
    that neither turn the body nor set its velocity *)
Definition keeps_orientation (o : body_op) : Prop :=
  match o with
  | BOSetRotation _ | BOSetFrame _ | BORotate _ | BORotateAroundPointInWorld _ _ _ | BORotateAroundPointInBody _ _ _
  | BORotateAroundCOG _ _ | BOSetVelocityInWorldNoRotation _ _ | BOSetAngularVelocityInWorld _ _
  | BOSetGenVelInBodyAtPointInBody _ _ _ _ => False
  | _ => True
  end.
Definition body_map (b : body) : motion := fun x => GetPointPositionInWorld b x NWU.
(** Bodies a program can build *)
Definition reachable (b : body) : Prop := exists l, List.Forall body_ok l /\ b = body_run l newbody.
(** The readings of a body and of its nodes agree with the state s *)
Definition node_observes (b : body) (s : bstate) (m : marker) (n : motion) : Prop :=
  (forall x, act (NGetFrameInBody b m) x = n x) /\ (forall x, act (NGetFrameInWorld m) x = bs_map s (n x)) /\
  (forall fc, NGetPositionInBody b m fc = convert fc (n origin)) /\
  (forall fc, NGetPositionInWorld m fc = convert fc (bs_map s (n origin))).
Definition observes (b : body) (s : bstate) : Prop :=
  (forall x, act (GetFrame b) x = bs_map s x) /\
  (forall fc, BGetPosition b fc = convert fc (bs_map s origin)) /\
  (forall p fc, GetPointPositionInWorld b p fc = convert fc (bs_map s (convert fc p))) /\
  (forall p fc, GetPointPositionInBody b (convert fc (bs_map s (convert fc p))) fc = p) /\
  (forall fc, GetCOG b fc = convert fc (bs_cog s)) /\
  (forall fc, GetCOGPositionInWorld b fc = convert fc (bs_map s (bs_cog s))) /\
  (forall p fc x, act (GetFrameAtPoint b p fc) x = bs_map s (plus3 (convert fc p) x)) /\
  rigid (bs_map s) /\
  length (b_marks b) = length (bs_nodes s) /\
  (forall i m n, nth_error (b_marks b) i = Some m -> nth_error (bs_nodes s) i = Some n -> node_observes b s m n).
(** The readings of a force on a body agree with the wrench w *)
Definition reads_as (b : body) (s : force) (w : wrench) : Prop :=
  let g := body_map b in
  vector_read g (w_force w) (GetForceInWorld s) (GetForceInBody b s) /\
  vector_read g (moment_of w (GetCOGPositionInWorld b NWU)) (GetTorqueInWorldAtCOG b s) (GetTorqueInBodyAtCOG s) /\
  point_field g (moment_of w) (GetTorqueInWorldAtPointInWorld b s) (GetTorqueInWorldAtPointInBody b s)
                              (GetTorqueInBodyAtPointInWorld b s) (GetTorqueInBodyAtPointInBody b s).
(** The velocity readings of a body agree with the rigid velocity field (P, v, w) *)
Definition velocity_reads (b : body) (P v w : vec) : Prop :=
  let g := body_map b in let U := rigid_velocity P v w in
  vector_read g w (BGetAngularVelocityInWorld b) (BGetAngularVelocityInBody b) /\
  vector_read g (U (g origin)) (GetLinearVelocityInWorld b) (GetVelocityInBody b) /\
  point_field g U (GetVelocityInWorldAtPointInWorld b) (GetVelocityInWorldAtPointInBody b)
                  (GetVelocityInBodyAtPointInWorld b) (GetVelocityInBodyAtPointInBody b).
(** ... and so do the readings at the centre of gravity and at the nodes *)
Definition velocity_reads_everywhere (b : body) (P v w : vec) : Prop :=
  let g := body_map b in let U := rigid_velocity P v w in
  velocity_reads b P v w /\
  vector_read g (U (GetCOGPositionInWorld b NWU)) (GetCOGLinearVelocityInWorld b) (GetCOGVelocityInBody b) /\
  (forall i m, nth_error (b_marks b) i = Some m ->
     (forall fc, NGetVelocityInWorld m fc = convert fc (U (NGetPositionInWorld m NWU))) /\
     (forall fc, NGetAngularVelocityInWorld m fc = convert fc w)).
