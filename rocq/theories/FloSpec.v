(** Specification vocabulary for flow fields, damping, manoeuvring, standard and polar flow forces (C69 - C74).
    Uses the textbook vector algebra of GeoSpec and the wrenches of BodySpec; of FloModel only data types. *)
From Coq Require Import Reals List Ascii String.
From Verif Require Import WavModel SeaModel FloModel GeoModel GeoSpec BodyModel BodySpec.
Import ListNotations.
Open Scope R_scope.

Definition opp3 (v : vec) : vec := scal3 (-1) v.
Definition length3 (v : vec) : R := sqrt (dot3 v v).
(** A vector that says where the flow goes, or where it comes from *)
Definition goes_to (dc : dconv) (v : vec) : vec := match dc with GOTO => v | COMEFROM => opp3 v end.
Definition radians (unit : aunit) (a : R) : R := match unit with DEG => a * PI / 180 | RAD => a end.
(** Bearing of a compass point: degrees from north, positive towards east *)
Definition bearing (c : compass) : R :=
  match c with CNorth => 0 | CNorthEast => 45 | CEast => 90 | CSouthEast => 135 | CSouth => 180 | CSouthWest => 225 | CWest => 270 | CNorthWest => 315 end.

(** Histories of a flow *)
Definition sets_ramp (o : flow_op) : bool := match o with WInitialize _ | WStepFinalize _ => true | _ => false end.
Definition is_update (o : flow_op) : bool := match o with WUpdate _ => true | _ => false end.
Fixpoint field_after (ops : list flow_op) (v : vec) : vec :=
  match ops with [] => v | WSet x :: r => field_after r x | WMakeFieldUniform :: r => field_after r origin | _ :: r => field_after r v end.

(** Power given to a rigid body by a wrench: G a point of the body, v its velocity, w the angular velocity *)
Definition power (wr : wrench) (G v w : vec) : R := dot3 (w_force wr) v + dot3 (moment_of wr G) w.
(** Quadratic form of a 6 x 6 matrix *)
Definition coord6 (v w : vec) : list R := [vx v; vy v; vz v; vx w; vy w; vz w].
Fixpoint sum_list (l : list R) : R := match l with [] => 0 | x :: r => x + sum_list r end.
Definition form6 (d : nat -> nat -> R) (x : nat -> R) : R :=
  sum_list (map (fun i => sum_list (map (fun j => x i * d i j * x j) [0; 1; 2; 3; 4; 5]%nat)) [0; 1; 2; 3; 4; 5]%nat).
Definition psd6 (d : nat -> nat -> R) : Prop := forall x, 0 <= form6 d x.
(** Velocity of the centre of gravity relative to the ground or to the fluid, world axes *)
Definition flow_of (e : envt) (ft : fluid) : flow := match ft with WATER => e_current e | AIR => e_wind e end.
Definition flow_velocity (w : flow) : vec := scal3 (w_ramp w) (w_field w).
Definition velocity_through (e : envt) (b : body) (relative : bool) (ft : fluid) : vec :=
  if relative then minus3 (GetCOGLinearVelocityInWorld b NWU) (flow_velocity (flow_of e ft)) else GetCOGLinearVelocityInWorld b NWU.

(** Manoeuvring: the terms asked for by a history of calls, value and exponents of surge, sway and yaw *)
Record term := Term { tm_val : R; tm_u : Z; tm_v : Z; tm_r : Z }.
Inductive axis := Surge | Sway | Yaw.
Definition letter (a : axis) : ascii := match a with Surge => "X" | Sway => "Y" | Yaw => "N" end.
Definition occurrences (c : ascii) (s : string) : Z := Z.of_nat (count_occ ascii_dec (list_ascii_of_string s) c).
Definition tag_term (tag : string) (val : R) : term := Term val (occurrences "u" tag) (occurrences "v" tag) (occurrences "w" tag).
Definition axis_eqb (a b : axis) : bool := match a, b with Surge, Surge | Sway, Sway | Yaw, Yaw => true | _, _ => false end.
Fixpoint terms_after (a : axis) (ops : list man_op) (l : list term) : list term :=
  match ops with
  | [] => l
  | MClearAll :: r => terms_after a r []
  | MSet tag val :: r => terms_after a r (match tag with String c _ => if Ascii.eqb c (letter a) then l ++ [tag_term tag val] else l | EmptyString => l end)
  | MSetXTag tag val :: r => terms_after a r (if axis_eqb a Surge then l ++ [tag_term tag val] else l)
  | MSetYTag tag val :: r => terms_after a r (if axis_eqb a Sway then l ++ [tag_term tag val] else l)
  | MSetNTag tag val :: r => terms_after a r (if axis_eqb a Yaw then l ++ [tag_term tag val] else l)
  | MSetX val m n p :: r => terms_after a r (if axis_eqb a Surge then l ++ [Term val m n p] else l)
  | MSetY val m n p :: r => terms_after a r (if axis_eqb a Sway then l ++ [Term val m n p] else l)
  | MSetN val m n p :: r => terms_after a r (if axis_eqb a Yaw then l ++ [Term val m n p] else l)
  end.
(** The power of a velocity taken by the code, for an exponent m: |x| to the half of m, x to the rest *)
Definition mixed_power (m : Z) (x : R) : R := if (m <=? 0)%Z then 1 else Rabs x ^ (Z.to_nat m / 2) * x ^ (Z.to_nat m - Z.to_nat m / 2).
Definition term_value (t : term) (u v r : R) : R := tm_val t * mixed_power (tm_u t) u * mixed_power (tm_v t) v * mixed_power (tm_r t) r.
Definition axis_force (l : list term) (u v r : R) : R := - sum_list (map (fun t => term_value t u v r) l).

(** A body that has only turned about the vertical *)
Definition level (b : body) (psi : R) : Prop := forall x, turn (body_map b) x = mv (Rz psi) x.
Definition horizontal (v : vec) : vec := V (vx v) (vy v) 0.
(** Flow relative to the origin of the body, whose vertical velocity is left out *)
Definition relative_flow (w : flow) (b : body) : vec := minus3 (flow_velocity w) (horizontal (GetLinearVelocityInWorld b NWU)).
Definition in_ship_axes (psi : R) (v : vec) : vec := mv (Rz (- psi)) v.
(** Angle off the bow from which a flow u (ship axes) comes *)
Definition off_bow (u : vec) : R := acos (- vx u / sqrt (vx u * vx u + vy u * vy u)).
(** Standard force in ship axes *)
Definition standard_force (cx cy rho : R) (s : standard) (u : vec) : vec :=
  scal3 (rho / 2 * dot3 u u / sqrt (vx u * vx u + vy u * vy u)) (V (cx * sd_transverse s * vx u) (cy * sd_lateral s * vy u) 0).

(** A setter was called *)
Definition given (P : R -> std_op) (ops : list std_op) : Prop := exists x, In (P x) ops.
(** Polar tables: the direction towards which the flow of a row goes (radians, NWU, ship axes), its coefficients in NWU *)
Definition row_direction (fc : conv) (dc : dconv) (a : R) : R :=
  match fc with NED => - a | NWU => a end + match dc with COMEFROM => PI | GOTO => 0 end.
Definition row_coef (fc : conv) (c : vec) : vec := convert fc c.
Fixpoint increasing (l : list (R * vec)) : Prop :=
  match l with a :: ((b :: _) as t) => fst a < fst b /\ increasing t | _ => True end.
Definition rad_rows (p : polar_file) : list (R * vec) := map (fun r => (radians (pf_unit p) (fst r), snd r)) (pf_rows p).
Definition first_angle (l : list (R * vec)) : R := match l with (a, _) :: _ => a | [] => 0 end.
Definition final_angle (l : list (R * vec)) : R := fst (last l (0, origin)).
(** Same direction *)
Definition congruent (a b : R) : Prop := exists k : Z, a = b + 2 * PI * IZR k.
(** Three ways of writing a polar table, angles in radians:
    all round, the last row well before the end of the turn; *)
Definition all_round (s : R) (l : list (R * vec)) : Prop :=
  increasing l /\ l <> [] /\ first_angle l = s /\ final_angle l < s + 2 * PI - 1 / 10 /\ 1 / 10 <= Rabs (final_angle l - (s + PI)).
(** closed, the last row one turn after the first: the first row and the others K come back, the last row is left out; *)
Definition closed_round (s : R) (K l : list (R * vec)) : Prop :=
  exists c, l = K ++ [(s + 2 * PI, c)] /\ increasing l /\ K <> [] /\ first_angle K = s.
(** half a turn: two end rows, and rows in between that are at least 0.1 rad after the first *)
Definition half_round (s : R) (c0 cn : vec) (mid l : list (R * vec)) : Prop :=
  l = (s, c0) :: mid ++ [(s + PI, cn)] /\ increasing l /\ (forall r, In r mid -> s + 1 / 10 <= fst r).
Definition starts_at (s : R) : Prop := s = 0 \/ s = - PI.
(** The row of the other side of a symmetric ship *)
Definition other_side (c : vec) : vec := V (vx c) (- vy c) (- vz c).
(** The rows a table stands for: all of them; all but the last of a closed table; those of a half table and their
    images on the other side *)
Definition stands_for (s : R) (l K : list (R * vec)) : Prop :=
  (all_round s l /\ K = l) \/ closed_round s K l \/
  (exists c0 cn mid, half_round s c0 cn mid l /\ K = l ++ map (fun r => (2 * (s + PI) - fst r, other_side (snd r))) (rev mid)).
Definition segment (t : R) (c d : vec) : vec := plus3 c (scal3 t (minus3 d c)).
(** Relative flow of the polar forces: at the centre of gravity *)
Definition cog_flow (w : flow) (b : body) : vec := minus3 (flow_velocity w) (GetCOGLinearVelocityInWorld b NWU).
Definition heading_of (u : vec) (x : R) : Prop :=
  0 <= x < 2 * PI /\ vx u = sqrt (vx u * vx u + vy u * vy u) * cos x /\ vy u = sqrt (vx u * vx u + vy u * vy u) * sin x.
