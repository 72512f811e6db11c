(** Model of the mesh clipper (mesh/FrMeshClipper.{h,cpp}): clipping surfaces, classification of the
    vertices and faces, projection and splitting, deletion; and of FrHydroMesh::Compute
    (mesh/FrHydroMesh.cpp).  Paths are relative to /repo/src/frydom.  [double] is [R].
    OpenMesh (third party) is trusted: [split] of an edge with a vertex replaces every face of the
    edge by two faces, the first keeping the handle of the old face and the second being added at
    the end of the face list; which half-edge is number 0, and the order in which the circulators
    visit vertices and half-edges, is left to the parameter [openmesh].
    [None] stands for a failed assertion, an endless loop or the read of an uninitialised variable.
    No proofs in this file. *)
From Coq Require Import Reals List Arith Bool.
From Verif Require Import GeoModel MeshModel.
Import ListNotations.
Open Scope R_scope.

(** ** Clipping surfaces *)
(** FrClippingSurface, FrMeshClipper.h: the two virtual functions *)
Record surface := Sf { s_dist : vec -> R; s_inter : vec -> vec -> option vec }.
(** m_bodyPosition without its z, 46-48, 69-71, 133-136 *)
Definition horizontal (bodyPos : vec) : vec := V (vx bodyPos) (vy bodyPos) 0.
(** FrClippingPlane::GetDistance 62-79 *)
Definition PlaneDistance (pl : plane) (bodyPos p : vec) : R :=
  let planeOrigin := vsub (Pl_GetOrigin pl NWU) (horizontal bodyPos) in
  vdot (vsub p planeOrigin) (Pl_GetNormal pl NWU).
(** FrClippingPlane::GetIntersection 25-60; None: one of the two assertions *)
Definition PlaneIntersection (pl : plane) (bodyPos P0 P1 : vec) : option vec :=
  let n := Pl_GetNormal pl NWU in
  let line := vsub P1 P0 in
  if Rlt_dec (1 / 10 ^ 16) (vnorm line) then
    if Req_EM_T (vdot line n) 0 then None
    else
      let planeOrigin := vsub (Pl_GetOrigin pl NWU) (horizontal bodyPos) in
      let vector := vsub planeOrigin P0 in
      let s := vdot vector n / vdot line n in
      Some (vadd P0 (vscale s (vsub P1 P0)))
  else None.
Definition ClippingPlane (pl : plane) (bodyPos : vec) : surface := Sf (PlaneDistance pl bodyPos) (PlaneIntersection pl bodyPos).
(** FrClippingWaveSurface::GetDistance 130-140; [eta x y] is FrFreeSurface::GetPosition(x, y, NWU) *)
Definition WaveDistance (eta : R -> R -> R) (bodyPos p : vec) : R :=
  let temp := vadd p (horizontal bodyPos) in
  vz temp - eta (vx temp) (vy temp).
(** Loop 107-119; the fuel is the number of iterations left *)
Definition positive (x : R) : bool := if Rlt_dec 0 x then true else false.
Fixpoint dichotomy (fuel : nat) (d : vec -> R) (threshold z1 : R) (p0 p1 : vec) (s0 s1 : R) : vec :=
  match fuel with
  | O => V 0 0 0
  | S fuel' =>
    let s := 1/2 * (s0 + s1) in
    let P := vadd (vscale s p1) (vscale (1 - s) p0) in
    let deltaz := d P in
    let ends := if (positive deltaz && positive z1) || (negb (positive deltaz) && negb (positive z1)) then (s0, s) else (s, s1) in
    if Rle_dec (Rabs deltaz) threshold then P
    else dichotomy fuel' d threshold z1 p0 p1 (fst ends) (snd ends)
  end.
(** FrClippingWaveSurface::GetIntersection 87-128 *)
Definition WaveIntersection (eta : R -> R -> R) (bodyPos : vec) (threshold : R) (p0 p1 : vec) : vec :=
  let d := WaveDistance eta bodyPos in
  let z0 := d p0 in
  if Rle_dec (Rabs z0) threshold then p0 else
  let z1 := d p1 in
  if Rle_dec (Rabs z1) threshold then p1 else
  dichotomy 1001 d threshold z1 p0 p1 0 1.
(** m_ThresholdDichotomy, FrMeshClipper.h *)
Definition ThresholdDichotomy : R := 1 / 10 ^ 4.
Definition ClippingWaveSurface (eta : R -> R -> R) (bodyPos : vec) : surface :=
  Sf (WaveDistance eta bodyPos) (fun p0 p1 => Some (WaveIntersection eta bodyPos ThresholdDichotomy p0 p1)).

(** ** Classification *)
(** VertexPosition, FrMeshTraits.h 51-56 *)
Inductive vpos := VP_ABOVE | VP_ON | VP_UNDER.
(** ClassifyVertex 305-323 *)
Definition ClassifyVertex (sf : surface) (threshold : R) (p : vec) : vpos :=
  let distance := s_dist sf p in
  if Rlt_dec (Rabs distance) threshold then VP_ON
  else if Rlt_dec 0 distance then VP_ABOVE
  else VP_UNDER.
(** FacePositionType, FrMeshClipper.h *)
Inductive fpos := FPT_003 | FPT_012 | FPT_021 | FPT_030 | FPT_102 | FPT_111 | FPT_120 | FPT_201 | FPT_210 | FPT_300.
Definition is_above (v : vpos) : bool := match v with VP_ABOVE => true | _ => false end.
Definition is_under (v : vpos) : bool := match v with VP_UNDER => true | _ => false end.
(** ClassifyFace 325-379 *)
Definition count (b : bool) : nat := if b then 1 else 0.
Definition ClassifyFace (a b c : vpos) : fpos :=
  let nbAbove := (count (is_above a) + count (is_above b) + count (is_above c))%nat in
  let nbUnder := (count (is_under a) + count (is_under b) + count (is_under c))%nat in
  match nbAbove with
  | 0%nat => match nbUnder with 0%nat => FPT_030 | 1%nat => FPT_021 | 2%nat => FPT_012 | _ => FPT_003 end
  | 1%nat => match nbUnder with 0%nat => FPT_120 | 1%nat => FPT_111 | _ => FPT_102 end
  | 2%nat => match nbUnder with 0%nat => FPT_210 | _ => FPT_201 end
  | _ => FPT_300
  end.

(** ** The mesh being clipped *)
(** Vertices with their position type, faces, c_FacesToDelete *)
Record cmesh := CM { c_verts : list vec; c_tags : list vpos; c_faces : list tri; c_del : list nat }.
Definition tag (st : cmesh) (i : nat) : vpos := nth i (c_tags st) VP_ON.
Definition place (st : cmesh) (i : nat) : vec := point (c_verts st) i.
Definition face_at (st : cmesh) (i : nat) : tri := nth i (c_faces st) (0, 0, 0)%nat.
Definition classify (st : cmesh) (t : tri) : fpos := ClassifyFace (tag st (fst (fst t))) (tag st (snd (fst t))) (tag st (snd t)).
(** Choices made by OpenMesh: is a -> b half-edge 0 of its edge; order of the vertices of a face;
    order of the half-edges around a vertex (given by their end points) *)
Record openmesh := OM { om_first : edge -> bool; om_vertices : tri -> list nat; om_outgoing : list tri -> nat -> list nat }.
(** IsEdgeCrossing 529-547 *)
Definition IsEdgeCrossing (sf : surface) (threshold : R) (st : cmesh) (a b : nat) : bool :=
  let dz_0 := s_dist sf (place st a) in
  let dz_1 := s_dist sf (place st b) in
  if Rlt_dec (Rabs dz_0) threshold then false
  else if Rlt_dec (Rabs dz_1) threshold then false
  else if Rlt_dec (dz_0 * dz_1) 0 then true else false.
(** IsHalfEdgeDownCrossing 556-569, IsHalfEdgeUpCrossing 571-584 *)
Definition IsHalfEdgeDownCrossing (sf : surface) (threshold : R) (st : cmesh) (e : edge) : bool :=
  let dz_from := s_dist sf (place st (fst e)) in
  let dz_to := s_dist sf (place st (snd e)) in
  if Rlt_dec (Rabs dz_from) threshold then false
  else if Rlt_dec (Rabs dz_to) threshold then false
  else if Rlt_dec 0 dz_from then (if Rlt_dec dz_to 0 then true else false) else false.
Definition IsHalfEdgeUpCrossing (sf : surface) (threshold : R) (st : cmesh) (e : edge) : bool :=
  let dz_from := s_dist sf (place st (fst e)) in
  let dz_to := s_dist sf (place st (snd e)) in
  if Rlt_dec (Rabs dz_from) threshold then false
  else if Rlt_dec (Rabs dz_to) threshold then false
  else if Rlt_dec dz_from 0 then (if Rlt_dec 0 dz_to then true else false) else false.
(** FindUpcrossingHalfEdge 586-596: endless when the three half-edges do not cross.
    FindDowncrossingHalfEdge 598-610: the third half-edge when the first two do not cross *)
Definition FindUpcrossingHalfEdge (sf : surface) (threshold : R) (st : cmesh) (t : tri) : option edge :=
  find (IsHalfEdgeUpCrossing sf threshold st) (edges_of t).
Definition FindDowncrossingHalfEdge (sf : surface) (threshold : R) (st : cmesh) (t : tri) : edge :=
  match find (IsHalfEdgeDownCrossing sf threshold st) (firstn 2 (edges_of t)) with
  | Some e => e
  | None => (snd t, fst (fst t))
  end.
(** ClassifyVertices 190-207 and Initialize 176-188 *)
Definition ClipInitialize (sf : surface) (threshold : R) (m : mesh) : cmesh :=
  CM (verts m) (map (ClassifyVertex sf threshold) (verts m)) (faces m) nil.
(** OpenMesh TriConnectivity::split(edge, vertex) (trusted), half-edge 0 being a -> b: a face with
    a -> b becomes (v, b, c) and a new face (c, a, v), a face with b -> a becomes (b, v, d) and a new
    face (a, d, v) *)
Definition apex (t : tri) (a b : nat) : option nat :=
  let '(x, y, z) := t in
  if edge_eqb (x, y) (a, b) then Some z else if edge_eqb (y, z) (a, b) then Some x else if edge_eqb (z, x) (a, b) then Some y else None.
Definition split_keep (v a b : nat) (t : tri) : tri :=
  match apex t a b with
  | Some c => (v, b, c)
  | None => match apex t b a with Some d => (b, v, d) | None => t end
  end.
Definition split_new0 (v a b : nat) (t : tri) : list tri := match apex t a b with Some c => [(c, a, v)] | None => nil end.
Definition split_new1 (v a b : nat) (t : tri) : list tri := match apex t b a with Some d => [(a, d, v)] | None => nil end.
Definition split (v a b : nat) (fs : list tri) : list tri :=
  map (split_keep v a b) fs ++ concat (map (split_new0 v a b) fs) ++ concat (map (split_new1 v a b) fs).
Definition has_vertex (v : nat) (t : tri) : bool := Nat.eqb (fst (fst t)) v || Nat.eqb (snd (fst t)) v || Nat.eqb (snd t) v.
(** FlagVertexAdjacentFacesToBeDeleted 515-527; the order of the flagged faces is irrelevant *)
Definition FlagVertexAdjacentFacesToBeDeleted (st : cmesh) (v : nat) : cmesh :=
  let flagged := filter (fun i => has_vertex v (face_at st i) &&
      match classify st (face_at st i) with FPT_120 | FPT_210 | FPT_030 => true | _ => false end) (seq 0 (length (c_faces st))) in
  CM (c_verts st) (c_tags st) (c_faces st) (c_del st ++ flagged).
(** ProcessHalfEdge 493-506 with InsertIntersectionVertex 612-630 *)
Definition ProcessHalfEdge (om : openmesh) (sf : surface) (st : cmesh) (e : edge) : option cmesh :=
  match s_inter sf (place st (fst e)) (place st (snd e)) with
  | None => None
  | Some p =>
    let v := length (c_verts st) in
    let h0 := if om_first om e then e else (snd e, fst e) in
    Some (FlagVertexAdjacentFacesToBeDeleted
      (CM (c_verts st ++ [p]) (c_tags st ++ [VP_ON]) (split v (fst h0) (snd h0) (c_faces st)) (c_del st)) v)
  end.
(** Loop 257-285 of HasProjection over the outgoing half-edges of a vertex at P0: the flag
    anyVertexProjected, Pi_final (None: not assigned yet) and distMin *)
Fixpoint scan_halfedges (sf : surface) (threshold ratio : R) (st : cmesh) (v : nat) (ns : list nat) (acc : bool * option vec * R) : option (bool * option vec * R) :=
  match ns with
  | nil => Some acc
  | n :: ns' =>
    if IsEdgeCrossing sf threshold st v n then
      match s_inter sf (place st v) (place st n) with
      | None => None
      | Some Pi =>
        let dist := vnorm (vsub Pi (place st v)) in
        let edge_length := vnorm (vsub (place st n) (place st v)) in
        scan_halfedges sf threshold ratio st v ns'
          (if Rlt_dec dist (edge_length * ratio) then
             (if Rlt_dec dist (snd acc) then (true, Some Pi, dist) else (true, snd (fst acc), snd acc))
           else acc)
      end
    else scan_halfedges sf threshold ratio st v ns' acc
  end.
(** OpenMesh's point(vh) = p and data(vh).SetOn(), 291-292 *)
Definition set_nth {A} (i : nat) (x : A) (l : list A) : list A := firstn i l ++ match skipn i l with nil => nil | _ :: r => x :: r end.
Definition project (st : cmesh) (v : nat) (p : vec) : cmesh := CM (set_nth v p (c_verts st)) (set_nth v VP_ON (c_tags st)) (c_faces st) (c_del st).
(** HasProjection 235-303 *)
Fixpoint scan_vertices (om : openmesh) (sf : surface) (threshold ratio : R) (st : cmesh) (vs : list nat) (pi : option vec) (distMin : R) : option (bool * cmesh) :=
  match vs with
  | nil => Some (false, st)
  | v :: vs' =>
    match scan_halfedges sf threshold ratio st v (om_outgoing om (c_faces st) v) (false, pi, distMin) with
    | None => None
    | Some (true, Some p, _) => Some (true, project st v p)
    | Some (true, None, _) => None
    | Some (false, pi', distMin') => scan_vertices om sf threshold ratio st vs' pi' distMin'
    end
  end.
Definition HasProjection (om : openmesh) (sf : surface) (threshold ratio : R) (st : cmesh) (t : tri) : option (bool * cmesh) :=
  scan_vertices om sf threshold ratio st (om_vertices om t) None (10 ^ 10).
Definition FlagFaceToBeDeleted (st : cmesh) (i : nat) : cmesh := CM (c_verts st) (c_tags st) (c_faces st) (c_del st ++ [i]).
(** ProcessFace 381-491; the fuel bounds the recursion after a projection *)
Fixpoint ProcessFace (fuel : nat) (om : openmesh) (sf : surface) (threshold ratio : R) (i : nat) (st : cmesh) : option cmesh :=
  match fuel with
  | O => None
  | S fuel' =>
    let t := face_at st i in
    match classify st t with
    | FPT_003 | FPT_012 | FPT_021 => Some st
    | FPT_030 | FPT_120 | FPT_210 | FPT_300 => Some (FlagFaceToBeDeleted st i)
    | FPT_102 | FPT_201 =>
      match HasProjection om sf threshold ratio st t with
      | None => None
      | Some (true, st') => ProcessFace fuel' om sf threshold ratio i st'
      | Some (false, _) =>
        let heh_down := FindDowncrossingHalfEdge sf threshold st t in
        match FindUpcrossingHalfEdge sf threshold st t with
        | None => None
        | Some heh_up =>
          match ProcessHalfEdge om sf st heh_down with
          | None => None
          | Some st1 => ProcessHalfEdge om sf st1 heh_up
          end
        end
      end
    | FPT_111 =>
      match HasProjection om sf threshold ratio st t with
      | None => None
      | Some (true, st') => ProcessFace fuel' om sf threshold ratio i st'
      | Some (false, _) =>
        match find (fun e => IsEdgeCrossing sf threshold st (fst e) (snd e)) (edges_of t) with
        | None => None
        | Some e => ProcessHalfEdge om sf st (if om_first om e then e else (snd e, fst e))
        end
      end
    end
  end.
(** Clip 213-224: the faces added on the way are visited too *)
Fixpoint Clip (fuel : nat) (om : openmesh) (sf : surface) (threshold ratio : R) (i : nat) (st : cmesh) : option cmesh :=
  if Nat.leb (length (c_faces st)) i then Some st else
  match fuel with
  | O => None
  | S fuel' =>
    match ProcessFace 4 om sf threshold ratio i st with
    | None => None
    | Some st' => Clip fuel' om sf threshold ratio (S i) st'
    end
  end.
(** ApplyFaceDeletion 640-647 and Finalize 649-665.  Simplification: garbage_collection renumbers the
    remaining vertices and faces and drops the vertices without faces; here the numbers are kept. *)
Definition ClipFinalize (st : cmesh) : mesh :=
  UpdateAllProperties (Mesh (c_verts st) (map (face_at st) (filter (fun i => negb (existsb (Nat.eqb i) (c_del st))) (seq 0 (length (c_faces st))))) nil None).
(** FrMeshClipper::Apply 152-164 *)
Definition Apply (fuel : nat) (om : openmesh) (sf : surface) (threshold ratio : R) (m : mesh) : option mesh :=
  match Clip fuel om sf threshold ratio 0 (ClipInitialize sf threshold m) with
  | None => None
  | Some st => Some (ClipFinalize st)
  end.
(** FrMeshClipper.h: m_Threshold, m_ProjectionThresholdRatio *)
Definition Threshold : R := 1 / 10 ^ 4.
Definition ProjectionThresholdRatio : R := 1 / 4.

(** ** FrHydroMesh *)
(** ImportMesh 133-140 *)
Definition ImportMesh (vs : list vec) (fs : list tri) (meshOffset : frame) : mesh :=
  MRotate (MTranslate (MLoad empty_mesh vs fs) (GetPosition meshOffset NWU)) (UQ_GetRotationMatrix (frot meshOffset)).
(** Compute 99-131: the mesh in body coordinates, rotation and position of the body, and the
    clipping surface for that position *)
Definition HM_Place (initMesh : mesh) (body : frame) : mesh :=
  MTranslate (MRotate initMesh (UQ_GetRotationMatrix (frot body))) (V 0 0 (vz (GetPosition body NWU))).
Definition HM_ComputePlane (fuel : nat) (om : openmesh) (initMesh : mesh) (body : frame) (tide : R) : option mesh :=
  match with_frame (V 0 0 tide) (V 0 0 1) with
  | None => None
  | Some pl => Apply fuel om (ClippingPlane pl (GetPosition body NWU)) Threshold ProjectionThresholdRatio (HM_Place initMesh body)
  end.
Definition HM_ComputeWave (fuel : nat) (om : openmesh) (initMesh : mesh) (body : frame) (eta : R -> R -> R) : option mesh :=
  Apply fuel om (ClippingWaveSurface eta (GetPosition body NWU)) Threshold ProjectionThresholdRatio (HM_Place initMesh body).
