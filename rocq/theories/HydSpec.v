(** Specification vocabulary for the hydrostatic properties (C36, C56, C57).
    Written without reference to the functions of HydModel. *)
From Coq Require Import Reals List.
From Coquelicot Require Import Coquelicot.
From Verif Require Import GeoModel GeoSpec MeshModel MeshSpec.
Import ListNotations.
Open Scope R_scope.

(** Closed polygons of the plane z = 0, run anticlockwise seen from above (positive area) *)
Definition waterline (l : list vec) : Prop := (forall v, In v l -> vz v = 0) /\ 0 < vz (vector_area l).
(** Integral of f over the waterplane bounded by such polygons *)
Definition waterplane (f : vec -> R) (ls : list (list vec)) : R := sum (map (fan f origin) ls).

(** Load of the water on the surface s and of a weight w at the point c, reduced at the point P:
    vertical force, moments about the axes x and y.  The pressure is -rho g z, against the normal. *)
Definition pressure_force (rho g : R) (s : soup) : vec :=
  scal3 (rho * g) (sum3 (map (fun t => let '(a, b, c) := t in vector_integral vz a b c) s)).
Definition moment_at (P : vec) (force moment : vec) : vec := minus3 moment (moment_of P force).
Definition load_force (rho g : R) (s : soup) (w : R) (c : vec) : vec := plus3 (pressure_force rho g s) (V 0 0 (- w)).
Definition load_moment (rho g : R) (s : soup) (w : R) (c P : vec) : vec :=
  plus3 (moment_at P (pressure_force rho g s) (pressure_moment rho g s)) (moment_of (minus3 c P) (V 0 0 (- w))).
(** Displacements of the body: heave h, roll and pitch about the point P *)
Definition heave (h : R) (p : vec) : vec := plus3 p (V 0 0 h).
Definition roll (P : vec) (a : R) (p : vec) : vec := plus3 P (mv (Rx a) (minus3 p P)).
Definition pitch (P : vec) (a : R) (p : vec) : vec := plus3 P (mv (Ry a) (minus3 p P)).
(** Generalised load (force z, moment x, moment y) at P after the displacement d *)
Definition load (rho g : R) (s : soup) (w : R) (c P : vec) (d : vec -> vec) : vec :=
  V (vz (load_force rho g (move d s) w (d c))) (vx (load_moment rho g (move d s) w (d c) P)) (vy (load_moment rho g (move d s) w (d c) P)).
(** Derivative of a vector valued function *)
Definition derive3 (f : R -> vec) (x : R) (d : vec) : Prop :=
  is_derive (fun t => vx (f t)) x (vx d) /\ is_derive (fun t => vy (f t)) x (vy d) /\ is_derive (fun t => vz (f t)) x (vz d).
(** Smallest and largest value of a coordinate over a list of points *)
Definition is_min (f : vec -> R) (l : list vec) (m : R) : Prop := (exists p, In p l /\ f p = m) /\ forall p, In p l -> m <= f p.
Definition is_max (f : vec -> R) (l : list vec) (m : R) : Prop := (exists p, In p l /\ f p = m) /\ forall p, In p l -> f p <= m.
(** Points given in axes parallel to the world axes, below the origin of the frame f (the hydro
    mesh is placed without the horizontal position of the body, see C53_placed), in the world *)
Definition in_world_axes (f : frame) (p : vec) : vec := plus3 p (V (vx (fpos f)) (vy (fpos f)) 0).
