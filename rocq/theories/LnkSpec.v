(** Specification vocabulary for the links (C170 - C192).  Written without the functions of LnkModel; the data types
    and [Q_LIMIT] are shared. *)
From Coq Require Import Reals List.
From Verif Require Import GeoModel GeoSpec BodyModel BodySpec MorSpec LnkModel.
Import ListNotations.
Open Scope R_scope.

(** Vector of components x in the axes of a node, in the world *)
Definition node_axes (m : marker) (x : vec) : vec := turn (act (NGetFrameInWorld m)) x.
Definition node_place (m : marker) : vec := act (NGetFrameInWorld m) origin.
(** Node i of a reachable body *)
Definition has_node (b : body) (i : nat) (m : marker) : Prop := reachable b /\ nth_error (b_marks b) i = Some m.
(** A wrench given at the centre of gravity of a body, with components in the axes of the body *)
Definition wrench_at_cog (b : body) (F T : vec) : wrench := W (turn (body_map b) F) (turn (body_map b) T) (GetCOGPositionInWorld b NWU).
(** A wrench given at a node, with components in the axes of the node *)
Definition wrench_at_node (m : marker) (F T : vec) : wrench := W (node_axes m F) (node_axes m T) (node_place m).
Definition same_wrench (w1 w2 : wrench) : Prop := w_force w1 = w_force w2 /\ forall P, moment_of w1 P = moment_of w2 P.
(** Action and reaction *)
Definition opposite (w1 w2 : wrench) : Prop :=
  plus3 (w_force w1) (w_force w2) = origin /\ forall P, plus3 (moment_of w1 P) (moment_of w2 P) = origin.
(** The joints: node 2 stands at the place of node 1, turned by theta about the common third axis; or node 2 is at the
    distance z of node 1 along the third axis, with the same axes *)
Definition hinge (m1 m2 : marker) (theta : R) : Prop := forall x, act (NGetFrameInWorld m2) x = act (NGetFrameInWorld m1) (mv (Rz theta) x).
Definition slide (m1 m2 : marker) (z : R) : Prop := forall x, act (NGetFrameInWorld m2) x = act (NGetFrameInWorld m1) (plus3 (V 0 0 z) x).
(** Below this angle the axis of a rotation is not computed: 2 acos(0.99999999), about 0.00028 rad *)
Definition DEAD : R := 2 * acos Q_LIMIT.
(** Operations on a revolute link other than its update and its motors; the updates are those of a hinge whose
    successive angles are given *)
Inductive hinge_history : list rev_op -> list R -> Prop :=
| hh_nil : hinge_history [] []
| hh_spring k c l h : hinge_history l h -> hinge_history (RSetSpringDamper k c :: l) h
| hh_rest a l h : hinge_history l h -> hinge_history (RSetRestAngle a :: l) h
| hh_ref l h : hinge_history l h -> hinge_history (RSetReference :: l) h
| hh_motor l h : hinge_history l h -> hinge_history (RMotorize :: l) h
| hh_clamp l h : hinge_history l h -> hinge_history (RClamp :: l) h
| hh_step b1 b2 i1 i2 m1 m2 rf rt theta l h : has_node b1 i1 m1 -> has_node b2 i2 m2 -> hinge m1 m2 theta -> hinge_history l h ->
    hinge_history (RStep m1 m2 rf rt :: l) (theta :: h).
(** The angles of a history start at a and change by less than d from one update to the next *)
Fixpoint slow (d a : R) (h : list R) : Prop := match h with [] => True | x :: t => Rabs (x - a) < d /\ slow d x t end.
Definition last_angle (a : R) (h : list R) : R := last h a.
(** Degrees of freedom of the types of links: x, y, z, rotations about x, y, z; true if blocked *)
Definition blocked_by (t : link_type) : option (list bool) :=
  match t with
  | FREE_LINK => Some [false; false; false; false; false; false]
  | FIXED_LINK => Some [true; true; true; true; true; true]
  | REVOLUTE => Some [true; true; true; true; true; false]          (* turns about z *)
  | PRISMATIC => Some [true; true; false; true; true; true]         (* slides along z *)
  | CYLINDRICAL => Some [true; true; false; true; true; false]      (* slides along z and turns about z *)
  | SPHERICAL => Some [true; true; true; false; false; false]
  | PRISMATICREVOLUTE => Some [false; true; true; true; true; false] (* slides along x and turns about z *)
  | CUSTOM => None
  end.
(** Blocked coordinates of a Chrono mask (X, Y, Z, E0, E1, E2, E3) in the same order *)
Definition of_chrono (l : list bool) : list bool :=
  match l with [x; y; z; _; rx; ry; rz] => [x; y; z; rx; ry; rz] | _ => [] end.
(** What a history of operations on a mask blocks *)
Definition blocks (o : mask_op) (s : list bool) : list bool :=
  match o, s with
  | KLockX l, [_; y; z; rx; ry; rz] => [l; y; z; rx; ry; rz]
  | KLockY l, [x; _; z; rx; ry; rz] => [x; l; z; rx; ry; rz]
  | KLockZ l, [x; y; _; rx; ry; rz] => [x; y; l; rx; ry; rz]
  | KLockRx l, [x; y; z; _; ry; rz] => [x; y; z; l; ry; rz]
  | KLockRy l, [x; y; z; rx; _; rz] => [x; y; z; rx; l; rz]
  | KLockRz l, [x; y; z; rx; ry; _] => [x; y; z; rx; ry; l]
  | KXZPlane, _ => [false; true; false; true; false; true]
  | KXYPlane, _ => [false; false; true; true; true; false]
  | KFree, _ => [false; false; false; false; false; false]
  | KLocked, _ => [true; true; true; true; true; true]
  | KType t, _ => match blocked_by t with Some l => l | None => [false; false; false; false; false; false] end
  | _, _ => s
  end.
(** The unit vector of an axis *)
Definition unit_axis (a : axis_label) : vec := match a with XAXIS => V 1 0 0 | YAXIS => V 0 1 0 | ZAXIS => V 0 0 1 end.
Definition parallel (a b : vec) : Prop := exists k, a = scal3 k b.
