(** Specification vocabulary for the Morison elements (C158 - C169): axes of a tube, drag of a tube, sums of
    wrenches.  Written without the functions of MorModel; only the data types are shared. *)
From Coq Require Import Reals List.
From Verif Require Import GeoModel GeoSpec BodyModel BodySpec MorModel.
Import ListNotations.
Open Scope R_scope.

Definition middle (A B : vec) : vec := scal3 (/ 2) (plus3 A B).
Definition size3 (a : vec) : R := sqrt (dot3 a a).
(** e1, e2, e3 are the axes of a tube from A to B: a right-handed orthonormal basis, e3 points from A to B, e1 is
    perpendicular to the reference direction v *)
Definition tube_axes (A B v e1 e2 e3 : vec) : Prop :=
  dot3 e1 e1 = 1 /\ dot3 e2 e2 = 1 /\ dot3 e3 e3 = 1 /\ dot3 e1 e2 = 0 /\ dot3 e2 e3 = 0 /\ dot3 e3 e1 = 0 /\ cross3 e1 e2 = e3 /\
  minus3 B A = scal3 (size3 (minus3 B A)) e3 /\ dot3 e1 v = 0.
(** The reference direction v can be used for the tube from A to B: it is not parallel to the tube (up to a
    relative precision), or it is parallel and both are perpendicular to the first axis of the body *)
Definition good_reference (A B v : vec) : Prop :=
  FLT_EPS * size3 (minus3 B A) < size3 (cross3 v (minus3 B A)) \/
  (cross3 v (minus3 B A) = origin /\ vx (minus3 B A) = 0).
(** Point of coordinates x along e1, e2, e3 from the middle of the tube *)
Definition tube_point (A B e1 e2 e3 x : vec) : vec :=
  plus3 (middle A B) (plus3 (plus3 (scal3 (vx x) e1) (scal3 (vy x) e2)) (scal3 (vz x) e3)).
(** Node i of the body stands at the middle of the tube from A to B (body coordinates), along its axes *)
Definition node_stands (b : body) (i : nat) (A B e1 e2 e3 : vec) : Prop :=
  exists m, nth_error (b_marks b) i = Some m /\ forall x, act (NGetFrameInBody b m) x = tube_point A B e1 e2 e3 x.
(** Operations on the body that do not concern its nodes *)
Definition no_node_op (o : body_op) : Prop :=
  match o with BONewNode | BONodeSetFrameInBody _ _ | BONodeSetFrameInWorld _ _ | BONodeSetPositionInBody _ _ _
             | BONodeSetPositionInWorld _ _ _ | BONodeTranslateInBody _ _ _ | BONodeTranslateInWorld _ _ _
             | BONodeSetOrientationInBody _ _ | BONodeRotateInBody _ _ | BONodeRotateInWorld _ _ => False | _ => True end.
Definition no_coeff_negative (ca cd : coeff) (cf d : R) : Prop :=
  0 <= co_x ca /\ 0 <= co_y ca /\ 0 <= co_x cd /\ 0 <= co_y cd /\ 0 <= cf /\ 0 <= d.

(** ** Forces on a tube of diameter d and length len, of axes a1, a2, a3 in the world *)
(** Quadratic force along the axis a, for the reference surface [area] and the relative velocity u of the water *)
Definition quad_along (rho c area : R) (u a : vec) : vec := scal3 (1 / 2 * rho * c * area * (dot3 u a * Rabs (dot3 u a))) a.
Definition drag_on (rho : R) (cd : coeff) (cf d len : R) (a1 a2 a3 u : vec) : vec :=
  plus3 (plus3 (quad_along rho (co_x cd) (d * len) u a1) (quad_along rho (co_y cd) (d * len) u a2))
        (quad_along rho cf (PI * d * len) u a3).
(** Force of inertia for the relative acceleration [acc] of the water, as coded: (1 + ca) rho volume acc across the tube *)
Definition inertia_on (rho : R) (ca : coeff) (volume : R) (a1 a2 acc : vec) : vec :=
  plus3 (scal3 (rho * (1 + co_x ca) * volume * dot3 acc a1) a1) (scal3 (rho * (1 + co_y ca) * volume * dot3 acc a2) a2).
Definition tube_volume (d len : R) : R := PI * d * d / 4 * len.

(** Force on a tube in the sea s, for the axes a1, a2, a3 of the tube in the world, the point P where the water is
    read, the velocity [vel] and the acceleration [acc] of that point of the tube; [current] tells whether the
    current is included and [extended] whether the forces of inertia are *)
Definition morison_force (s : sea) (acc : vec) (current extended : bool) (p : property) (a1 a2 a3 P vel : vec) : vec :=
  let u := minus3 (plus3 (sea_wave s P) (if current then sea_current s P else origin)) vel in
  let dr := drag_on (sea_rho s) (p_cd p) (p_cf p) (p_diameter p) (p_length p) a1 a2 a3 u in
  if extended then plus3 dr (inertia_on (sea_rho s) (p_ca p) (p_volume p) a1 a2 (minus3 (sea_wave_acc s P) acc)) else dr.

(** ** Models made of several elements *)
(** The tubes of a model, at every level *)
Fixpoint tubes (e : element) : list (header * property) :=
  match e with Tube h p => [(h, p)] | Group _ _ l => flat_map tubes l end.
Definition sum3 (l : list vec) : vec := fold_right plus3 origin l.
(** Sum of wrenches, at the point P *)
Definition total_wrench (l : list wrench) (P : vec) : wrench := W (sum3 (map w_force l)) (sum3 (map (fun w => moment_of w P) l)) P.
Definition power_on (w : wrench) (P v om : vec) : R := dot3 (w_force w) v + dot3 (moment_of w P) om.

(** Properties with which each element of a composite is built by a sequence of operations, given the default
    properties in force: drag, added mass, friction, diameter *)
Definition quality := (coeff * coeff * R * R)%type.
Definition quality_of (p : property) : quality := (p_cd p, p_ca p, p_cf p, p_diameter p).
Fixpoint qualities (ops : list group_op) (q : quality) : list quality :=
  let '(cd, ca, cf, d) := q in
  match ops with
  | [] => []
  | GAddModel x :: r => quality_of (match x with Tube _ p => p | Group _ p _ => p end) :: qualities r q
  | GAddNodes _ _ _ d' ca' cd' cf' _ :: r | GAddFrame _ _ _ d' ca' cd' cf' :: r => (cd', ca', cf', d') :: qualities r q
  | GAddTube _ _ _ d' ca' cd' cf' n _ :: r => repeat (cd', ca', cf', d') n ++ qualities r q
  | GAddNodesDefault _ _ _ _ :: r | GAddFrameDefault _ _ _ :: r => q :: qualities r q
  | GAddTubeDefault _ _ _ n _ :: r => repeat q n ++ qualities r q
  | GSetDrag c :: r => qualities r (c, ca, cf, d)
  | GSetFriction x :: r => qualities r (cd, ca, x, d)
  | GSetAddedMass c :: r => qualities r (cd, c, cf, d)
  | GSetDiameter x :: r => qualities r (cd, ca, cf, x)
  | GSetIncludeCurrent _ :: r | GSetExtendedModel _ :: r => qualities r q
  end.
(** The same water everywhere *)
Definition uniform_sea (s : sea) : Prop :=
  forall X Y, sea_wave s X = sea_wave s Y /\ sea_current s X = sea_current s Y /\ sea_wave_acc s X = sea_wave_acc s Y.
