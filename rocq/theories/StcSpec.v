(** Specification for the static analysis, the simple solids and the mooring buoy. *)
From Coq Require Import Reals List Bool.
From Coquelicot Require Import Coquelicot.
From Verif Require Import GeoModel GeoSpec BodyModel BodySpec InertiaModel SeaModel StcModel.
Import ListNotations.
Open Scope R_scope.

Section statics.
Context {F : Type}.
Implicit Types s : sys F.
(** The activities that the API reads: of the bodies and of their forces, of the links, of the physics items *)
Definition body_activity s := map (fun e => (fst e, BIsActive (snd e))) (y_bodies s).
Definition force_activity s := map (fun e => (fst e, map (fun f => (fst f, it_active (snd f))) (sb_forces (snd e)))) (y_bodies s).
Definition link_activity s := map (fun e => (fst e, LIsActive (snd e))) (y_links s).
Definition item_activity s := map (fun e => (fst e, it_active (snd e))) (y_items s).
(** The addresses of the objects of the system, and the objects it is made of *)
Definition addresses s := flat_map (fun e => fst e :: map fst (sb_forces (snd e))) (y_bodies s) ++ map fst (y_links s) ++ map fst (y_items s).
Definition layout s := (map (fun e => (fst e, map fst (sb_forces (snd e)))) (y_bodies s), map fst (y_links s), map fst (y_items s)).
(** The configuration of a static analysis: all bodies awake, all links enabled, the forces and items that are included in it and no
    other, and a time ramp that is zero *)
Definition static_configuration s :=
  (forall e, In e (y_bodies s) -> sb_sleeping (snd e) = false /\ forall f, In f (sb_forces (snd e)) -> it_active (snd f) = it_included (snd f)) /\
  (forall e, In e (y_links s) -> lk_disabled (snd e) = false) /\
  (forall e, In e (y_items s) -> it_active (snd e) = it_included (snd e)) /\ y_ramp s = (0, 0, 1, 0).
(** The bodies of two systems are the same, at the same place *)
Definition same_places s s' := Forall2 (fun e e' => fst e = fst e' /\ forall x, body_map (sb_body (snd e)) x = body_map (sb_body (snd e')) x) (y_bodies s) (y_bodies s').
Definition all_bodies s (P : body -> Prop) := forall e, In e (y_bodies s) -> P (sb_body (snd e)).
End statics.
Definition at_rest (b : body) := exists P, velocity_reads_everywhere b P vzero vzero.

(** ** Integrals over a box, a cylinder of axis y and a ball, centred at the origin (cylindrical and spherical coordinates) *)
Definition box_integral (a b c : R) (f : R -> R -> R -> R) : R :=
  RInt (fun x => RInt (fun y => RInt (fun z => f x y z) (- c / 2) (c / 2)) (- b / 2) (b / 2)) (- a / 2) (a / 2).
Definition cylinder_integral (r h : R) (f : R -> R -> R -> R) : R :=
  RInt (fun y => RInt (fun s => RInt (fun t => f (s * cos t) y (s * sin t) * s) 0 (2 * PI)) 0 r) (- h / 2) (h / 2).
Definition ball_integral (r : R) (f : R -> R -> R -> R) : R :=
  RInt (fun s => RInt (fun u => RInt (fun t => f (s * sin u * cos t) (s * sin u * sin t) (s * cos u) * (s * s * sin u)) 0 (2 * PI)) 0 PI) 0 r.
(** The mass, the centre of gravity and the inertia at it of a solid of constant density *)
Definition homogeneous (integral : (R -> R -> R -> R) -> R) (mass : R) (t : tensor) : Prop := exists rho,
  let I f := integral (fun x y z => rho * f x y z) in
  let G := i_cog t in let m := i_mat t in
  i_mass t = mass /\ I (fun _ _ _ => 1) = mass /\
  I (fun x _ _ => x) = mass * vx G /\ I (fun _ y _ => y) = mass * vy G /\ I (fun _ _ z => z) = mass * vz G /\
  m00 m = I (fun x y z => (y - vy G) * (y - vy G) + (z - vz G) * (z - vz G)) /\
  m11 m = I (fun x y z => (x - vx G) * (x - vx G) + (z - vz G) * (z - vz G)) /\
  m22 m = I (fun x y z => (x - vx G) * (x - vx G) + (y - vy G) * (y - vy G)) /\
  m01 m = - I (fun x y z => (x - vx G) * (y - vy G)) /\ m10 m = m01 m /\
  m02 m = - I (fun x y z => (x - vx G) * (z - vz G)) /\ m20 m = m02 m /\
  m12 m = - I (fun x y z => (y - vy G) * (z - vz G)) /\ m21 m = m12 m.
(** The points of a shape *)
Definition inside (s : shape) (p : vec) : Prop :=
  match s with
  | Box a b c => Rabs (vx p) <= a /\ Rabs (vy p) <= b /\ Rabs (vz p) <= c
  | EllipticCylinder a c h => (vx p / a) * (vx p / a) + (vz p / c) * (vz p / c) <= 1 /\ Rabs (vy p) <= h
  | Cylinder p1 p2 r => let u := minus3 p2 p1 in let d := minus3 p p1 in
      0 <= dot3 d u <= dot3 u u /\ dot3 d d * dot3 u u - dot3 d u * dot3 d u <= r * r * dot3 u u
  | Sphere r => dot3 p p <= r * r
  end.
(** The volume of the part of a ball of radius r that is below a horizontal plane at height d above its centre *)
Definition wetted_volume (r d : R) : R := RInt (fun z => PI * (r * r - z * z)) (- r) (Rmax (- r) (Rmin r d)).
