(** Model of the surface-mesh classes: polynomial face integrals, planes, polygons, boundary
    polygons, volume, centre of gravity and inertia of a mesh (mesh/FrMesh.cpp, FrPlane.cpp,
    FrPolygon.{h,cpp}) and of the nonlinear hydrostatic force
    (hydrodynamics/seakeeping/.../FrNonlinearHydrostaticForce.cpp).
    Paths are relative to /repo/src/frydom.  [double] is modelled by [R].
    OpenMesh (third party, not in /repo) is trusted: vertices and faces are kept in lists, faces are
    index triples, the half-edges are the directed edges of the faces and their opposites.
    [None] stands for a failed assertion or an endless loop.  No proofs in this file. *)
From Coq Require Import Reals List Arith Bool.
From Verif Require Import GeoModel.
Import ListNotations.
Open Scope R_scope.

(** ** Faces *)
(** The sixteen integrals stored on a face, FrMeshTraits.h 100-121 *)
Record fints := FI { i1 : R; ix : R; iy : R; iz : R; iyz : R; ixz : R; ixy : R; ix2 : R; iy2 : R; iz2 : R;
                     ix3 : R; iy3 : R; iz3 : R; ix2y : R; iy2z : R; iz2x : R }.
(** IntegrandType, FrMeshTraits.h 25-46, without UNDEFINED_INTEGRAND and POLY_Y2X, for which the
    face getter throws or falls off its end *)
Inductive poly := POLY_1 | POLY_X | POLY_Y | POLY_Z | POLY_YZ | POLY_XZ | POLY_XY | POLY_X2 | POLY_Y2 | POLY_Z2
                | POLY_X3 | POLY_Y3 | POLY_Z3 | POLY_X2Y | POLY_Y2Z | POLY_Z2X.
(** FaceT::GetSurfaceIntegral, FrMeshTraits.h 135-177 *)
Definition GetSurfaceIntegral (d : fints) (t : poly) : R :=
  match t with
  | POLY_1 => i1 d | POLY_X => ix d | POLY_Y => iy d | POLY_Z => iz d
  | POLY_YZ => iyz d | POLY_XZ => ixz d | POLY_XY => ixy d
  | POLY_X2 => ix2 d | POLY_Y2 => iy2 d | POLY_Z2 => iz2 d
  | POLY_X3 => ix3 d | POLY_Y3 => iy3 d | POLY_Z3 => iz3 d
  | POLY_X2Y => ix2y d | POLY_Y2Z => iy2z d | POLY_Z2X => iz2x d
  end.
(** OpenMesh Vec3d operator*: component by component *)
Definition vmulc (a b : vec) : vec := V (vx a * vx b) (vy a * vy b) (vz a * vz b).
(** FrMesh::CalcFacePolynomialIntegrals, FrMesh.cpp 469-541.  The first vertex is the origin of the
    half-edge of the face: here the first one listed. *)
Definition CalcFacePolynomialIntegrals (P0 P1 P2 : vec) : fints :=
  let e1 := vsub P1 P0 in
  let e2 := vsub P2 P0 in
  let cp := vcross e1 e2 in
  let delta := vnorm cp in
  let t0 := vadd P0 P1 in
  let f1 := vadd t0 P2 in
  let t1 := vmulc P0 P0 in
  let t2 := vadd t1 (vmulc P1 t0) in
  let f2 := vadd t2 (vmulc P2 f1) in
  let f3 := vadd (vadd (vmulc P0 t1) (vmulc P1 t2)) (vmulc P2 f2) in
  let g0 := vadd f2 (vmulc P0 (vadd f1 P0)) in
  let g1 := vadd f2 (vmulc P1 (vadd f1 P1)) in
  let g2 := vadd f2 (vmulc P2 (vadd f1 P2)) in
  FI (delta / 2)
     (delta * vx f1 / 6) (delta * vy f1 / 6) (delta * vz f1 / 6)
     (delta * (6 * vy P0 * vz P0 + 3 * (vy P1 * vz P1 + vy P2 * vz P2) - vy P0 * vz f1 - vz P0 * vy f1) / 12)
     (delta * (6 * vx P0 * vz P0 + 3 * (vx P1 * vz P1 + vx P2 * vz P2) - vx P0 * vz f1 - vz P0 * vx f1) / 12)
     (delta * (6 * vx P0 * vy P0 + 3 * (vx P1 * vy P1 + vx P2 * vy P2) - vx P0 * vy f1 - vy P0 * vx f1) / 12)
     (delta * vx f2 / 12) (delta * vy f2 / 12) (delta * vz f2 / 12)
     (delta * vx f3 / 20) (delta * vy f3 / 20) (delta * vz f3 / 20)
     (delta * (vy P0 * vx g0 + vy P1 * vx g1 + vy P2 * vx g2) / 60)
     (delta * (vz P0 * vy g0 + vz P1 * vy g1 + vz P2 * vy g2) / 60)
     (delta * (vx P0 * vz g0 + vx P1 * vz g1 + vx P2 * vz g2) / 60).
(** OpenMesh calc_face_normal (trusted): normalised cross product, zero for a degenerate face *)
Definition face_normal (P0 P1 P2 : vec) : vec :=
  let n := vcross (vsub P2 P1) (vsub P0 P1) in
  let length := vnorm n in
  if Req_EM_T length 0 then V 0 0 0 else vscale (1 / length) n.

(** ** Planes (mesh/FrPlane.cpp) *)
Record plane := Pl { pl_origin : vec; pl_normal : vec; pl_frame : frame }.
(** GetOrigin 63-67, GetNormal 79-83 *)
Definition Pl_GetOrigin (p : plane) (fc : conv) : vec := swap_if fc (pl_origin p).
Definition Pl_GetNormal (p : plane) (fc : conv) : vec := swap_if fc (pl_normal p).
(** GetSignedDistanceToPoint 97-102, GetDistanceToPoint 92-94 *)
Definition SignedDistanceTo (origin normal : vec) (p : vec) (fc : conv) : R :=
  vdot (vsub p (swap_if fc origin)) (swap_if fc normal).
Definition GetSignedDistanceToPoint (pl : plane) (p : vec) (fc : conv) : R := SignedDistanceTo (pl_origin pl) (pl_normal pl) p fc.
Definition GetDistanceToPoint (pl : plane) (p : vec) (fc : conv) : R := Rabs (GetSignedDistanceToPoint pl p fc).
(** GetIntersectionWithLine 104-120 *)
Definition IntersectionWithLine (origin normal : vec) (P0 P1 : vec) (fc : conv) : option vec :=
  let normale := swap_if fc normal in
  let line := vsub P1 P0 in
  if Rlt_dec (1 / 10 ^ 16) (vnorm line) then
    if Req_EM_T (vdot line normale) 0 then None
    else
      let vector := vsub (swap_if fc origin) P0 in
      let s := vdot vector normale / vdot line normale in
      Some (vadd P0 (vscale s (vsub P1 P0)))
  else None.
Definition GetIntersectionWithLine (pl : plane) (P0 P1 : vec) (fc : conv) : option vec :=
  IntersectionWithLine (pl_origin pl) (pl_normal pl) P0 P1 fc.
(** GetClosestPointOnPlane 122-124 *)
Definition ClosestPointOnPlane (origin normal : vec) (p : vec) (fc : conv) : option vec :=
  IntersectionWithLine origin normal p (vadd p (swap_if fc normal)) fc.
Definition GetClosestPointOnPlane (pl : plane) (p : vec) (fc : conv) : option vec := ClosestPointOnPlane (pl_origin pl) (pl_normal pl) p fc.
(** BuildFrame 126-152 *)
Definition BuildFrame (origin normal : vec) : option frame :=
  match ClosestPointOnPlane origin normal vzero NWU with
  | None => None
  | Some pos =>
    let z := normal in
    let x := vnormalize (vcross normal (V 0 (-1) 0)) in
    let x := if Rlt_dec (vnorm x) (1 / 10 ^ 8) then vcross normal (V 1 0 0) else x in
    let y := vnormalize (vcross z x) in
    let matrix := M (vx x) (vx y) (vx z) (vy x) (vy y) (vy z) (vz x) (vz y) (vz z) in
    Some (Fr pos (UQ_SetMatrix matrix NWU))
  end.
Definition with_frame (origin normal : vec) : option plane :=
  match BuildFrame origin normal with Some f => Some (Pl origin normal f) | None => None end.
(** FrPlane(origin, normal, fc) 18-26 *)
Definition FrPlane_make (origin normal : vec) (fc : conv) : option plane :=
  if Rlt_dec (Rabs (1 - vnorm normal)) (1 / 10 ^ 8) then with_frame (swap_if fc origin) (swap_if fc normal) else None.
(** SetOrigin 56-60, SetNormal 73-77 *)
Definition Pl_SetOrigin (p : plane) (origin : vec) (fc : conv) : option plane := with_frame (swap_if fc origin) (pl_normal p).
Definition Pl_SetNormal (p : plane) (normal : vec) (fc : conv) : option plane := with_frame (pl_origin p) (swap_if fc normal).
(** FrPlane(cloudPoint, fc) 28-54; the loop 41-44 over consecutive points *)
Fixpoint normal_sum (G : vec) (l : list vec) (acc : vec) : vec :=
  match l with
  | p :: ((q :: _) as l') => normal_sum G l' (vadd acc (vcross (vsub G p) (vsub G q)))
  | _ => acc
  end.
Definition vsum (l : list vec) : vec := fold_left vadd l vzero.
Definition FrPlane_cloud (cloud : list vec) (fc : conv) : option plane :=
  match cloud with
  | nil => None
  | _ =>
    let G := vscale (/ INR (length cloud)) (vsum cloud) in
    let n := vnormalize (normal_sum G cloud vzero) in
    with_frame (swap_if fc G) (swap_if fc n)
  end.

(** ** Polygons (mesh/FrPolygon.cpp) *)
(** PolygonSurfaceIntegrals, FrPolygon.h 27-84 *)
Record pints := PI10 { j1 : R; jx : R; jy : R; jxy : R; jx2 : R; jy2 : R; jx2y : R; jy2x : R; jx3 : R; jy3 : R }.
(** Initial values of the four local variables IntX2Y, IntY2X, IntX3, IntY3 that are never
    initialised (63-64): arbitrary *)
Record junk := Junk { u_x2y : R; u_y2x : R; u_x3 : R; u_y3 : R }.
(** Loop 75-110 *)
Fixpoint poly_loop (pos0 : vec) (l : list vec) (s : pints) : pints :=
  match l with
  | nil => s
  | pos1 :: l' =>
    let x0 := vx pos0 in let y0 := vy pos0 in let x1 := vx pos1 in let y1 := vy pos1 in
    let dx := x1 - x0 in let dy := y1 - y0 in let px := x0 + x1 in let py := y0 + y1 in
    let a := x0 * x0 + x1 * x1 in let b := y0 * y0 + y1 * y1 in
    poly_loop pos1 l'
      (PI10 (j1 s + dy * px)
            (jx s + dy * (px * px - x0 * x1))
            (jy s + dx * (py * py - y0 * y1))
            (jxy s + dy * (py * px * px + 2 * (y0 * x0 * x0 + y1 * x1 * x1)))
            (jx2 s + dy * a * px)
            (jy2 s + dx * b * py)
            (jx2y s + dy * (py * px ^ 3 + 3 * x0 ^ 3 * y0 + 3 * x1 ^ 3 * y1 - x0 * x0 * x1 * y1 - x0 * x1 * x1 * y0))
            (jy2x s + dx * (px * py ^ 3 + 3 * y0 ^ 3 * x0 + 3 * y1 ^ 3 * x1 - y0 * y0 * y1 * x1 - y0 * y1 * y1 * x0))
            (jx3 s + dy * (x0 ^ 4 + x0 ^ 3 * x1 + x0 * x1 ^ 3 + x1 ^ 4))
            (jy3 s + dx * (y0 ^ 4 + y0 ^ 3 * y1 + y0 * y1 ^ 3 + y1 ^ 4)))
  end.
(** ComputeSurfacePolynomialIntegrals 60-124 on the vertices in the plane *)
Definition ComputeSurfacePolynomialIntegrals (u : junk) (vertexInPlane : list vec) : option pints :=
  match vertexInPlane with
  | nil => None
  | pos0 :: l =>
    let s := poly_loop pos0 l (PI10 0 0 0 0 0 0 (u_x2y u) (u_y2x u) (u_x3 u) (u_y3 u)) in
    Some (PI10 (j1 s / 2) (jx s / 6) (jy s / -6) (jxy s / 24) (jx2 s / 12) (jy2 s / -12)
               (jx2y s / 60) (jy2x s / -60) (jx3 s / 20) (jy3 s / -20))
  end.
Record polygon := Pg { pg_verts : list vec; pg_plane : plane; pg_ints : pints }.
(** FrPolygon(vertexList, fc) 20-31, CheckPlanar 148-159, GetVertexInPlane 165-176, GetPlane 178-180.
    None: the assertion IsPlanar() or one of FrPlane fails.  The plane, which the code recomputes at
    every call from the same vertices, is kept in the record. *)
Definition all_planar (pl : plane) (l : list vec) : bool :=
  forallb (fun p => if Rlt_dec (GetDistanceToPoint pl p NWU) (1 / 10 ^ 4) then true else false) l.
Definition FrPolygon_make (u : junk) (vertexList : list vec) (fc : conv) : option polygon :=
  let vs := map (swap_if fc) vertexList in
  match FrPlane_cloud vs NWU with
  | None => None
  | Some pl =>
    if all_planar pl vs then
      match ComputeSurfacePolynomialIntegrals u (map (fun p => GetPointPositionInFrame (pl_frame pl) p NWU) vs) with
      | Some j => Some (Pg vs pl j)
      | None => None
      end
    else None
  end.
(** GetVertexList 33-40, GetArea 56-58 *)
Definition Pg_GetVertexList (p : polygon) (fc : conv) : list vec := map (swap_if fc) (pg_verts p).
Definition Pg_GetArea (p : polygon) : R := j1 (pg_ints p).

(** ** Meshes *)
Definition tri := (nat * nat * nat)%type.
Definition edge := (nat * nat)%type.
(** Vertices, faces, data stored on the faces (normal and integrals), cached boundary polygons
    (FrCache m_polygonSet: None when invalid) *)
Record mesh := Mesh { verts : list vec; faces : list tri; fdata : list (vec * fints); polys : option (list polygon) }.
Definition point (vs : list vec) (i : nat) : vec := nth i vs vzero.
Definition corner0 (vs : list vec) (t : tri) := point vs (fst (fst t)).
Definition corner1 (vs : list vec) (t : tri) := point vs (snd (fst t)).
Definition corner2 (vs : list vec) (t : tri) := point vs (snd t).
Definition face_data (vs : list vec) (t : tri) : vec * fints :=
  (face_normal (corner0 vs t) (corner1 vs t) (corner2 vs t),
   CalcFacePolynomialIntegrals (corner0 vs t) (corner1 vs t) (corner2 vs t)).
(** UpdateAllProperties 433-443 (UpdateBaseProperties 445-458, UpdateFacesPolynomialIntegrals 460-467) *)
Definition UpdateAllProperties (m : mesh) : mesh := Mesh (verts m) (faces m) (map (face_data (verts m)) (faces m)) None.
Definition empty_mesh : mesh := Mesh nil nil nil None.
(** FrMesh(meshfile), Load 204-227: the file contents are given as lists; reading adds to the mesh *)
Definition MLoad (m : mesh) (vs : list vec) (fs : list tri) : mesh :=
  let n := length (verts m) in
  UpdateAllProperties (Mesh (verts m ++ vs) (faces m ++ map (fun t => (n + fst (fst t), n + snd (fst t), n + snd t)%nat) fs) (fdata m) (polys m)).
(** CreateBox 229-319 *)
Definition box_vertices (Lx Ly Lz : R) : list vec :=
  [ vscale (1/2) (V (- Lx) (- Ly) Lz); vscale (1/2) (V Lx (- Ly) Lz); vscale (1/2) (V Lx Ly Lz); vscale (1/2) (V (- Lx) Ly Lz);
    vscale (1/2) (V (- Lx) (- Ly) (- Lz)); vscale (1/2) (V Lx (- Ly) (- Lz)); vscale (1/2) (V Lx Ly (- Lz)); vscale (1/2) (V (- Lx) Ly (- Lz)) ].
Definition box_faces : list tri :=
  [ (0, 1, 2); (2, 3, 0); (0, 4, 1); (1, 4, 5); (1, 5, 2); (2, 5, 6); (2, 6, 3); (3, 6, 7); (3, 7, 0); (0, 7, 4); (6, 5, 4); (7, 6, 4) ]%nat.
Definition CreateBox (m : mesh) (Lx Ly Lz : R) : mesh := MLoad m (box_vertices Lx Ly Lz) box_faces.
(** Translate 321-330 *)
Definition MTranslate (m : mesh) (t : vec) : mesh :=
  UpdateAllProperties (Mesh (map (fun p => vadd p t) (verts m)) (faces m) (fdata m) (polys m)).
(** Rotate(matrix) 332-348.  Skipping the loop for the identity matrix changes nothing and is not
    modelled (mathutils' IsIdentity has a tolerance). *)
Definition MRotate (m : mesh) (r : mat) : mesh :=
  UpdateAllProperties (Mesh (map (mapply r) (verts m)) (faces m) (fdata m) (polys m)).
(** Rotate(phi, theta, psi) 350-390 *)
Definition rotate_matrix (phi theta psi : R) : mat :=
  let cphi := cos phi in let sphi := sin phi in let ctheta := cos theta in let stheta := sin theta in
  let cpsi := cos psi in let spsi := sin psi in
  M (ctheta * cpsi) (sphi * stheta * cpsi - cphi * spsi) (cphi * stheta * cpsi + sphi * spsi)
    (ctheta * spsi) (sphi * stheta * spsi + cphi * cpsi) (cphi * stheta * spsi - sphi * cpsi)
    (- stheta) (ctheta * sphi) (ctheta * cphi).
Definition MRotateAngles (m : mesh) (phi theta psi : R) : mesh := MRotate m (rotate_matrix phi theta psi).

(** GetMeshedSurfaceIntegral(iNormal, type) 856-865, GetMeshedSurfaceIntegral(type) 868-876 *)
Definition Rsum (l : list R) : R := fold_left Rplus l 0.
Definition component (i : nat) (v : vec) : R := match i with 0%nat => vx v | 1%nat => vy v | _ => vz v end.
Definition GetMeshedSurfaceIntegralN (m : mesh) (iNormal : nat) (t : poly) : R :=
  Rsum (map (fun d => component iNormal (fst d) * GetSurfaceIntegral (snd d) t) (fdata m)).
Definition GetMeshedSurfaceIntegral (m : mesh) (t : poly) : R :=
  Rsum (map (fun d => GetSurfaceIntegral (snd d) t) (fdata m)).

(** Half-edges: the directed edges of the faces; a boundary half-edge is the opposite of a directed
    edge whose opposite belongs to no face *)
Definition edges_of (t : tri) : list edge :=
  [(fst (fst t), snd (fst t)); (snd (fst t), snd t); (snd t, fst (fst t))].
Definition face_edges (fs : list tri) : list edge := concat (map edges_of fs).
Definition opposite (e : edge) : edge := (snd e, fst e).
Definition edge_eqb (a b : edge) : bool := Nat.eqb (fst a) (fst b) && Nat.eqb (snd a) (snd b).
Definition edge_mem (e : edge) (l : list edge) : bool := existsb (edge_eqb e) l.
Definition boundary_halfedges (fs : list tri) : list edge :=
  map opposite (filter (fun e => negb (edge_mem (opposite e) (face_edges fs))) (face_edges fs)).
(** next_halfedge_handle on a boundary half-edge: the boundary half-edge starting at its end *)
Definition next_boundary (B : list edge) (h : edge) : option edge := find (fun k => Nat.eqb (fst k) (snd h)) B.
(** HasBoundaries 830-838, IsWatertight 840-844 *)
Definition HasBoundaries (m : mesh) : bool := existsb (fun e => negb (edge_mem (opposite e) (face_edges (faces m)))) (face_edges (faces m)).
Definition IsWatertight (m : mesh) : bool := negb (HasBoundaries m).
(** Circulation 911-921 along the boundary from heh until heh_init; [fuel] bounds the number of
    steps (None: it never comes back) *)
Fixpoint circulate (fuel : nat) (B : list edge) (heh_init heh : edge) : option (list edge) :=
  if edge_eqb heh heh_init then Some nil else
  match fuel with
  | O => None
  | S fuel' =>
    match next_boundary B heh with
    | None => None
    | Some h => match circulate fuel' B heh_init h with Some l => Some (heh :: l) | None => None end
    end
  end.
(** Loop 899-927: list of the boundary loops; tagged = already visited half-edges *)
Fixpoint boundary_loops (fuel : nat) (B tagged : list edge) : option (list (list edge)) :=
  match find (fun h => negb (edge_mem h tagged)) B with
  | None => Some nil
  | Some heh_init =>
    match fuel with
    | O => None
    | S fuel' =>
      match next_boundary B heh_init with
      | None => None
      | Some h =>
        match circulate (length B) B heh_init h with
        | None => None
        | Some l =>
          match boundary_loops fuel' B (tagged ++ heh_init :: l) with
          | None => None
          | Some ls => Some ((heh_init :: l) :: ls)
          end
        end
      end
    end
  end.
(** vertexList 906-920: origin of the first half-edge, then the end of every half-edge *)
Definition loop_points (vs : list vec) (l : list edge) : list vec :=
  match l with nil => nil | h :: _ => point vs (fst h) :: map (fun k => point vs (snd k)) l end.
Fixpoint make_all (u : list vec -> junk) (ls : list (list vec)) : option (list polygon) :=
  match ls with
  | nil => Some nil
  | l :: ls' =>
    match FrPolygon_make (u l) l NWU, make_all u ls' with
    | Some p, Some ps => Some (p :: ps)
    | _, _ => None
    end
  end.
(** CalcBoundaryPolygonSet 887-936 *)
Definition CalcBoundaryPolygonSet (u : list vec -> junk) (m : mesh) : option (list polygon) :=
  let B := boundary_halfedges (faces m) in
  match boundary_loops (length B) B nil with
  | None => None
  | Some ls => make_all u (map (loop_points (verts m)) ls)
  end.
(** GetBoundaryPolygonSet 879-885; the mesh is returned with its cache filled *)
Definition GetBoundaryPolygonSet (u : list vec -> junk) (m : mesh) : option (list polygon * mesh) :=
  match polys m with
  | Some ps => Some (ps, m)
  | None =>
    match CalcBoundaryPolygonSet u m with
    | Some ps => Some (ps, Mesh (verts m) (faces m) (fdata m) (Some ps))
    | None => None
    end
  end.
(** GetMeshedSurfaceArea 572-581, GetArea 583-593 *)
Definition GetMeshedSurfaceArea (m : mesh) : R := Rsum (map (fun d => i1 (snd d)) (fdata m)).
Definition GetArea (u : list vec -> junk) (m : mesh) : option (R * mesh) :=
  match GetBoundaryPolygonSet u m with
  | None => None
  | Some (ps, m') => Some (fold_left (fun a p => a + Pg_GetArea p) ps (GetMeshedSurfaceArea m), m')
  end.
(** Contribution of a boundary polygon to the volume, 604-615 *)
Definition polygon_volume (p : polygon) : R :=
  let pl := pg_plane p in
  let n := Pl_GetNormal pl NWU in
  let e := vdot (GetPosition (pl_frame pl) NWU) n in
  let wc := vz n in
  let r := UQ_GetInverseRotationMatrix (frot (pl_frame pl)) in
  wc * (e * wc * j1 (pg_ints p) + m02 r * jx (pg_ints p) + m12 r * jy (pg_ints p)).
(** GetVolume 596-620 *)
Definition GetVolume (u : list vec -> junk) (m : mesh) : option (R * mesh) :=
  match GetBoundaryPolygonSet u m with
  | None => None
  | Some (ps, m') => Some (fold_left (fun v p => v + polygon_volume p) ps (GetMeshedSurfaceIntegralN m 2 POLY_Z), m')
  end.
(** Contribution Gcorr.cwiseProduct(normal) of a boundary polygon to the centre of gravity, 793-825 *)
Definition polygon_cog (p : polygon) : vec :=
  let pl := pg_plane p in
  let n := Pl_GetNormal pl NWU in
  let e := vdot (GetPosition (pl_frame pl) NWU) n in
  let r := UQ_GetInverseRotationMatrix (frot (pl_frame pl)) in
  let Sc := j1 (pg_ints p) in let mux := jx (pg_ints p) in let muy := jy (pg_ints p) in
  let muxy := jxy (pg_ints p) in let mux2 := jx2 (pg_ints p) in let muy2 := jy2 (pg_ints p) in
  let corr := fun a b nn => a * a * mux2 + b * b * muy2 + e * e * nn * nn * Sc + 2 * a * b * muxy + 2 * e * nn * (a * mux + b * muy) in
  vmulc (V (corr (m00 r) (m10 r) (vx n)) (corr (m01 r) (m11 r) (vy n)) (corr (m02 r) (m12 r) (vz n))) n.
(** GetCOG 776-828 *)
Definition GetCOG (u : list vec -> junk) (m : mesh) : option (vec * mesh) :=
  match GetVolume u m with
  | None => None
  | Some (volume, m') =>
    let Inv2Volume := (1/2) / volume in
    match GetBoundaryPolygonSet u m' with
    | None => None
    | Some (ps, m'') =>
      let G := V (GetMeshedSurfaceIntegralN m 0 POLY_X2 * Inv2Volume)
                 (GetMeshedSurfaceIntegralN m 1 POLY_Y2 * Inv2Volume)
                 (GetMeshedSurfaceIntegralN m 2 POLY_Z2 * Inv2Volume) in
      Some (fold_left (fun g p => vadd g (vscale Inv2Volume (polygon_cog p))) ps G, m'')
    end
  end.
(** GetPlainInertiaTensor 622-758: mass, the six coefficients (Ixx Iyy Izz Ixy Ixz Iyz) at the mesh
    origin and the COG handed to FrInertiaTensor.  Meshes without boundary only: None when there is
    a boundary polygon (its integrals of degree three come from uninitialised variables). *)
Record inertia6 := I6 { k_mass : R; kxx : R; kyy : R; kzz : R; kxy : R; kxz : R; kyz : R; k_cog : vec }.
Definition GetPlainInertiaTensor (u : list vec -> junk) (m : mesh) (density : R) : option inertia6 :=
  match GetVolume u m with
  | None => None
  | Some (volume, m1) =>
    match GetCOG u m1 with
    | None => None
    | Some (cog, m2) =>
      match GetBoundaryPolygonSet u m2 with
      | Some (nil, _) =>
        let third := 1 / 3 in
        let intV_x2 := third * GetMeshedSurfaceIntegralN m 0 POLY_X3 in
        let intV_y2 := third * GetMeshedSurfaceIntegralN m 1 POLY_Y3 in
        let intV_z2 := third * GetMeshedSurfaceIntegralN m 2 POLY_Z3 in
        let intV_xy := GetMeshedSurfaceIntegralN m 0 POLY_X2Y in
        let intV_yz := GetMeshedSurfaceIntegralN m 1 POLY_Y2Z in
        let intV_zx := GetMeshedSurfaceIntegralN m 2 POLY_Z2X in
        Some (I6 (density * volume) (density * (intV_y2 + intV_z2)) (density * (intV_x2 + intV_z2)) (density * (intV_x2 + intV_y2))
                 (- (1/2) * density * intV_xy) (- (1/2) * density * intV_zx) (- (1/2) * density * intV_yz) cog)
      | _ => None
      end
    end
  end.
(** GetShellInertiaTensor 760-774 *)
Definition GetShellInertiaTensor (u : list vec -> junk) (m : mesh) (density thickness : R) : option inertia6 :=
  match GetBoundaryPolygonSet u m with
  | Some (nil, m1) =>
    match GetVolume u m1 with
    | None => None
    | Some (volume, m2) =>
      match GetCOG u m2 with
      | None => None
      | Some (cog, _) =>
        let I := GetMeshedSurfaceIntegral m in
        let re := density * thickness in
        Some (I6 (density * volume) (re * (I POLY_Y2 + I POLY_Z2)) (re * (I POLY_X2 + I POLY_Z2)) (re * (I POLY_Y2 + I POLY_X2))
                 (- re * I POLY_XY) (- re * I POLY_XZ) (- re * I POLY_YZ) cog)
      end
    end
  | _ => None
  end.
(** FrAABoundingBox and GetBoundingBox 543-568 *)
Record aabb := BB { xmin : R; xmax : R; ymin : R; ymax : R; zmin : R; zmax : R }.
Definition GetBoundingBox (m : mesh) : aabb :=
  match verts m with
  | nil => BB 0 0 0 0 0 0
  | p :: _ =>
    fold_left (fun b q => BB (Rmin (xmin b) (vx q)) (Rmax (xmax b) (vx q)) (Rmin (ymin b) (vy q)) (Rmax (ymax b) (vy q))
                             (Rmin (zmin b) (vz q)) (Rmax (zmax b) (vz q)))
      (verts m) (BB (vx p) (vx p) (vy p) (vy p) (vz p) (vz p))
  end.

(** ** Nonlinear hydrostatic force (FrNonlinearHydrostaticForce.cpp) on a clipped mesh *)
(** GetHydrostaticForceInWorld 105-136 *)
Definition GetHydrostaticForceInWorld (m : mesh) (rho g : R) (fc : conv) : vec :=
  let f := fold_left (fun f d => let pressure := iz (snd d) in
      V (vx f + pressure * vx (fst d)) (vy f + pressure * vy (fst d)) (vz f + pressure * vz (fst d))) (fdata m) (V 0 0 0) in
  swap_if fc (vscale (g * rho) f).
(** GetHydrostaticTorqueInWorld 138-171 *)
Definition GetHydrostaticTorqueInWorld (m : mesh) (rho g : R) (fc : conv) : vec :=
  let t := fold_left (fun t d =>
      let xz := ixz (snd d) in let yz := iyz (snd d) in let zz := iz2 (snd d) in let n := fst d in
      V (vx t + (yz * vz n - zz * vy n)) (vy t + (zz * vx n - xz * vz n)) (vz t + (xz * vy n - yz * vx n))) (fdata m) (V 0 0 0) in
  swap_if fc (vscale (g * rho) t).
(** GetCenterOfBuoyancyInWorld 84-99; bodyPos: position of the body (NWU) *)
Definition GetCenterOfBuoyancyInWorld (u : list vec -> junk) (m : mesh) (bodyPos : vec) (fc : conv) : option vec :=
  match verts m with
  | nil => Some (V 0 0 0)
  | _ =>
    match GetCOG u m with
    | None => None
    | Some (g, _) => Some (swap_if fc (vadd g (V (vx bodyPos) (vy bodyPos) 0)))
    end
  end.

(** ** Operations on a mesh, as one instruction set *)
Inductive mesh_op :=
| MOLoad (vs : list vec) (fs : list tri) | MOBox (Lx Ly Lz : R) | MOTranslate (t : vec) | MORotate (r : mat) | MORotateAngles (phi theta psi : R)
| MOGetPolygons | MOGetVolume | MOGetArea | MOGetCOG.
Definition mesh_step (u : list vec -> junk) (o : mesh_op) (m : mesh) : option mesh :=
  match o with
  | MOLoad vs fs => Some (MLoad m vs fs)
  | MOBox x y z => Some (CreateBox m x y z)
  | MOTranslate t => Some (MTranslate m t)
  | MORotate r => Some (MRotate m r)
  | MORotateAngles a b c => Some (MRotateAngles m a b c)
  | MOGetPolygons => match GetBoundaryPolygonSet u m with Some (_, m') => Some m' | None => None end
  | MOGetVolume => match GetVolume u m with Some (_, m') => Some m' | None => None end
  | MOGetArea => match GetArea u m with Some (_, m') => Some m' | None => None end
  | MOGetCOG => match GetCOG u m with Some (_, m') => Some m' | None => None end
  end.
Fixpoint mesh_run (u : list vec -> junk) (ops : list mesh_op) (m : mesh) : option mesh :=
  match ops with nil => Some m | o :: ops' => match mesh_step u o m with Some m' => mesh_run u ops' m' | None => None end end.
