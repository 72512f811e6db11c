(** Specification vocabulary for clipping (C34, C35, C53): points between two points, meshes without
    border, what is expected from a clipping surface and from OpenMesh's circulators.
    Written without reference to the clipping functions of ClipModel. *)
From Coq Require Import Reals List Permutation.
From Verif Require Import GeoModel GeoSpec MeshModel MeshSpec ClipModel.
Import ListNotations.
Open Scope R_scope.

(** r is on the segment from p to q *)
Definition between (p q r : vec) : Prop := exists s, 0 <= s <= 1 /\ r = plus3 p (scal3 s (minus3 q p)).
(** p and q are strictly on either side, farther than eps *)
Definition opposite_sides (d : vec -> R) (eps : R) (p q : vec) : Prop := (eps <= d p /\ d q <= - eps) \/ (eps <= d q /\ d p <= - eps).
(** A clipping surface that finds the intersections of the segments across it *)
Definition cuts (sf : surface) (eps : R) : Prop := forall p q, opposite_sides (s_dist sf) eps p q ->
  exists r, s_inter sf p q = Some r /\ between p q r /\ Rabs (s_dist sf r) < eps.
(** Circulators visit the vertices of the face, and neighbours of the vertex *)
Definition circulators (om : openmesh) : Prop :=
  (forall a b c x, In x (om_vertices om (a, b, c)) <-> x = a \/ x = b \/ x = c) /\
  (forall fs v n, In n (om_outgoing om fs v) <-> In (v, n) (mesh_edges fs) \/ In (n, v) (mesh_edges fs)).
(** Faces with three different vertices *)
Definition proper (fs : list (nat * nat * nat)) : Prop := forall a b c, In (a, b, c) fs -> a <> b /\ b <> c /\ c <> a.
(** No border: every directed edge is used as often as its opposite *)
Definition borderless (fs : list (nat * nat * nat)) : Prop :=
  Permutation (mesh_edges fs) (map (fun e => (snd e, fst e)) (mesh_edges fs)).
(** Points closer than 10^9 metres to the origin, coordinate by coordinate *)
Definition in_world (p : vec) : Prop := - 10 ^ 9 <= vx p <= 10 ^ 9 /\ - 10 ^ 9 <= vy p <= 10 ^ 9 /\ - 10 ^ 9 <= vz p <= 10 ^ 9.
(** Quantities that are the sum of those of the two parts when a triangle is cut from a corner
    to a point of the opposite side, and do not depend on the corner named first *)
Definition additive (phi : vec -> vec -> vec -> R) : Prop :=
  (forall a b c, phi b c a = phi a b c) /\ (forall a b c v, between a b v -> phi a b c = phi v b c + phi c a v).
Definition total_over (phi : vec -> vec -> vec -> R) (s : soup) : R := sum (map (fun t => let '(a, b, c) := t in phi a b c) s).
(** The value of d changes at most K times as much as the position *)
Definition lipschitz (d : vec -> R) (K : R) : Prop := forall p q, Rabs (d p - d q) <= K * dist3 p q.
(** p belongs to the triangle a b c *)
Definition inside (a b c p : vec) : Prop :=
  exists u v w, 0 <= u /\ 0 <= v /\ 0 <= w /\ u + v + w = 1 /\ p = plus3 (scal3 u a) (plus3 (scal3 v b) (scal3 w c)).
(** p belongs to one of the triangles *)
Definition covered (s : soup) (p : vec) : Prop := exists a b c, In (a, b, c) s /\ inside a b c p.
(** Signed distance to the plane through o with unit normal n *)
Definition above_plane (o n p : vec) : R := dot3 (minus3 p o) n.
(** All triangles lie in the plane z = h *)
Definition level (h : R) (s : soup) : Prop := forall a b c, In (a, b, c) s -> vz a = h /\ vz b = h /\ vz c = h.
(** Area of a soup projected on the horizontal plane, positive when the normals point upwards *)
Definition horizontal_area (s : soup) : R := total_over (fun a b c => vz (area2 a b c) / 2) s.
(** Numbers of corners above, on and under the surface announced by the name of a face type *)
Definition digits (f : fpos) : nat * nat * nat :=
  (match f with
   | FPT_003 => (0, 0, 3) | FPT_012 => (0, 1, 2) | FPT_021 => (0, 2, 1) | FPT_030 => (0, 3, 0) | FPT_102 => (1, 0, 2)
   | FPT_111 => (1, 1, 1) | FPT_120 => (1, 2, 0) | FPT_201 => (2, 0, 1) | FPT_210 => (2, 1, 0) | FPT_300 => (3, 0, 0)
   end)%nat.
