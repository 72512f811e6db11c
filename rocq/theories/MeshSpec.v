(** Specification vocabulary for the mesh properties (C30-C33): integrals over triangles,
    plane polygons and tetrahedra as iterated Riemann integrals, watertight surfaces.
    Written without reference to the functions of MeshModel (only the names of the monomials). *)
From Coq Require Import Reals List Permutation.
From Coquelicot Require Import Coquelicot.
From Verif Require Import GeoModel GeoSpec MeshModel.
Import ListNotations.
Open Scope R_scope.

(** The polynomial named by each integrand *)
Definition mono (t : poly) (p : vec) : R :=
  match t with
  | POLY_1 => 1 | POLY_X => vx p | POLY_Y => vy p | POLY_Z => vz p
  | POLY_YZ => vy p * vz p | POLY_XZ => vx p * vz p | POLY_XY => vx p * vy p
  | POLY_X2 => vx p * vx p | POLY_Y2 => vy p * vy p | POLY_Z2 => vz p * vz p
  | POLY_X3 => vx p * vx p * vx p | POLY_Y3 => vy p * vy p * vy p | POLY_Z3 => vz p * vz p * vz p
  | POLY_X2Y => vx p * vx p * vy p | POLY_Y2Z => vy p * vy p * vz p | POLY_Z2X => vz p * vz p * vx p
  end.

(** ** Triangles *)
(** Point p0 + u (p1 - p0) + v (p2 - p0); the triangle is 0 <= u, 0 <= v, u + v <= 1 *)
Definition tri_point (p0 p1 p2 : vec) (u v : R) : vec := plus3 p0 (plus3 (scal3 u (minus3 p1 p0)) (scal3 v (minus3 p2 p0))).
Definition over_triangle (f : vec -> R) (p0 p1 p2 : vec) : R :=
  RInt (fun u => RInt (fun v => f (tri_point p0 p1 p2 u v)) 0 (1 - u)) 0 1.
(** Normal vector whose length is twice the area *)
Definition area2 (p0 p1 p2 : vec) : vec := cross3 (minus3 p1 p0) (minus3 p2 p0).
(** Integral of f over the triangle with respect to area *)
Definition surface_integral (f : vec -> R) (p0 p1 p2 : vec) : R :=
  sqrt (dot3 (area2 p0 p1 p2) (area2 p0 p1 p2)) * over_triangle f p0 p1 p2.
(** Flux-like integral: f times the (vector) area element *)
Definition vector_integral (f : vec -> R) (p0 p1 p2 : vec) : vec := scal3 (over_triangle f p0 p1 p2) (area2 p0 p1 p2).

(** ** Plane polygons: signed fan of triangles with apex o, coordinates x and y *)
Definition cross2 (o a b : vec) : R := (vx a - vx o) * (vy b - vy o) - (vy a - vy o) * (vx b - vx o).
Fixpoint fan (f : vec -> R) (o : vec) (l : list vec) : R :=
  match l with
  | a :: ((b :: _) as l') => cross2 o a b * over_triangle f o a b + fan f o l'
  | _ => 0
  end.
Definition closed_list (l : list vec) : Prop := match l with nil => False | a :: l' => last l' a = a end.
(** Vector area of a closed list of points of space *)
Fixpoint vector_area (l : list vec) : vec :=
  match l with
  | a :: ((b :: _) as l') => plus3 (scal3 (1/2) (cross3 a b)) (vector_area l')
  | _ => origin
  end.

(** ** Tetrahedra with one vertex at the origin, and volumes bounded by triangle soups *)
Definition tet_point (p0 p1 p2 : vec) (u v w : R) : vec := plus3 (scal3 u p0) (plus3 (scal3 v p1) (scal3 w p2)).
Definition det3 (a b c : vec) : R := dot3 a (cross3 b c).
Definition tet_integral (f : vec -> R) (p0 p1 p2 : vec) : R :=
  det3 p0 p1 p2 * RInt (fun u => RInt (fun v => RInt (fun w => f (tet_point p0 p1 p2 u v w)) 0 (1 - u - v)) 0 (1 - u)) 0 1.
Definition triangle := (vec * vec * vec)%type.
Definition soup := list triangle.
Definition sum (l : list R) : R := fold_right Rplus 0 l.
Definition sum3 (l : list vec) : vec := fold_right plus3 origin l.
(** Integral of f over the (signed) volume bounded by the soup *)
Definition volume_integral (f : vec -> R) (s : soup) : R :=
  sum (map (fun t => tet_integral f (fst (fst t)) (snd (fst t)) (snd t)) s).
Definition volume (s : soup) : R := volume_integral (fun _ => 1) s.
(** Directed edges; a soup is watertight when every directed edge is matched by its opposite *)
Definition tri_edges (t : triangle) : list (vec * vec) := let '(a, b, c) := t in [(a, b); (b, c); (c, a)].
Definition soup_edges (s : soup) : list (vec * vec) := concat (map tri_edges s).
Definition flip (e : vec * vec) : vec * vec := (snd e, fst e).
Definition watertight (s : soup) : Prop := Permutation (soup_edges s) (map flip (soup_edges s)).
Definition move (g : vec -> vec) (s : soup) : soup := map (fun t => let '(a, b, c) := t in (g a, g b, g c)) s.
(** Fan of triangles closing a polygon from the point o *)
Fixpoint fan_soup (o : vec) (l : list vec) : soup :=
  match l with
  | a :: ((b :: _) as l') => (o, a, b) :: fan_soup o l'
  | _ => nil
  end.
(** Triangles of a mesh *)
Definition triangle_at (vs : list vec) (t : nat * nat * nat) : triangle :=
  let '(a, b, c) := t in (nth a vs origin, nth b vs origin, nth c vs origin).
Definition soup_of (vs : list vec) (fs : list (nat * nat * nat)) : soup := map (triangle_at vs) fs.
(** Directed edges of a list of faces given by indices *)
Definition mesh_edges (fs : list (nat * nat * nat)) : list (nat * nat) :=
  concat (map (fun t => let '(a, b, c) := t in [(a, b); (b, c); (c, a)]) fs).
(** Consistently oriented: no directed edge is used by two faces *)
Definition consistent (fs : list (nat * nat * nat)) : Prop := NoDup (mesh_edges fs).
(** The edge e is used in the other direction by a face and by no face in its own *)
Definition border (fs : list (nat * nat * nat)) (e : nat * nat) : Prop :=
  In (snd e, fst e) (mesh_edges fs) /\ ~ In e (mesh_edges fs).
(** At most one border edge leaves each vertex *)
Definition simple_borders (fs : list (nat * nat * nat)) : Prop := forall a b c, border fs (a, b) -> border fs (a, c) -> b = c.
(** Faces refer to existing vertices *)
Definition indices_ok (vs : list vec) (fs : list (nat * nat * nat)) : Prop :=
  forall a b c, In (a, b, c) fs -> (a < length vs /\ b < length vs /\ c < length vs)%nat.
(** Points of a common plane *)
Definition coplanar (l : list vec) : Prop := exists m d, m <> origin /\ forall p, In p l -> dot3 p m = d.
(** Fans closing the holes bounded by the given closed polygons *)
Definition cap (l : list vec) : soup := fan_soup (hd origin l) l.
Definition caps (ls : list (list vec)) : soup := concat (map cap ls).
(** Centroid of the volume bounded by a soup *)
Definition centroid (s : soup) : vec :=
  scal3 (/ volume s) (V (volume_integral vx s) (volume_integral vy s) (volume_integral vz s)).
Definition triangle_area (t : triangle) : R := let '(a, b, c) := t in sqrt (dot3 (area2 a b c) (area2 a b c)) / 2.
(** Moment about the origin of the hydrostatic pressure rho g (-z) acting against the outward
    normal: integral of rho g z (r x n) over the surface, component by component *)
Definition pressure_moment (rho g : R) (s : soup) : vec :=
  scal3 (rho * g) (sum3 (map (fun t => let '(a, b, c) := t in
    minus3 (V (vz (vector_integral (fun p => vy p * vz p) a b c)) (vx (vector_integral (fun p => vz p * vz p) a b c)) (vy (vector_integral (fun p => vx p * vz p) a b c)))
           (V (vy (vector_integral (fun p => vz p * vz p) a b c)) (vz (vector_integral (fun p => vx p * vz p) a b c)) (vx (vector_integral (fun p => vy p * vz p) a b c)))) s)).
(** All triangles lie in the plane z = 0 *)
Definition flat (s : soup) : Prop := forall a b c, In (a, b, c) s -> vz a = 0 /\ vz b = 0 /\ vz c = 0.
(** Moment of a force applied at a point *)
Definition moment_of (point force : vec) : vec := cross3 point force.
(** Displacement of the points by an instruction, for the instructions that do not add faces *)
Definition rigid_op (o : mesh_op) : Prop :=
  match o with MOLoad _ _ | MOBox _ _ _ => False | MORotate r => rotation_matrix r | _ => True end.
Definition op_motion (o : mesh_op) (p : vec) : vec :=
  match o with
  | MOTranslate t => plus3 p t
  | MORotate r => mv r p
  | MORotateAngles phi theta psi => mv (mm (Rz psi) (mm (Ry theta) (Rx phi))) p
  | _ => p
  end.
Definition ops_motion (ops : list mesh_op) (p : vec) : vec := fold_left (fun q o => op_motion o q) ops p.
