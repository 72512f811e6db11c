(** Properties C30-C33 and C50-C52: meshes, polygons, hydrostatic force.
    Integrals, watertight surfaces, centroids, rigid motions are defined in MeshSpec.
    [u] gives the contents of the uninitialised variables of FrPolygon.cpp: arbitrary. *)
From Coq Require Import Reals List Lra Lia Permutation Arith Bool.
From Coquelicot Require Import Coquelicot.
From Verif Require Import GeoModel GeoSpec GeoProofs GeoProofs3 MeshModel MeshSpec MeshProofs MeshProofs2 MeshProofs3 MeshProofs4 MeshProofs5 MeshProofs6 MeshProofs7 MeshProofs8 MeshProofs9 MeshProofs10 MeshProofs11.
Import ListNotations.
Open Scope R_scope.

(** A hull used in the examples: box 2 x 2 x 1 without lid, rim at z = 0 *)
Definition hull_verts : list vec := [V (-1) (-1) 0; V 1 (-1) 0; V 1 1 0; V (-1) 1 0; V (-1) (-1) (-1); V 1 (-1) (-1); V 1 1 (-1); V (-1) 1 (-1)].
Definition hull_faces : list tri := [ (0, 4, 1); (1, 4, 5); (1, 5, 2); (2, 5, 6); (2, 6, 3); (3, 6, 7); (3, 7, 0); (0, 7, 4); (6, 5, 4); (7, 6, 4) ]%nat.
Definition hull_rim : list vec := [V (-1) (-1) 0; V 1 (-1) 0; V 1 1 0; V (-1) 1 0; V (-1) (-1) 0].

(** ** C30 *)
(** After any sequence of operations on a mesh, the data stored on each face are the integrals of
    the monomials over the triangle; the normal is the unit vector along the vector area.
    Separate: the monomials YZ, XZ, XY, see the next theorem. *)
Theorem C30_face_integrals : forall u ops m, mesh_run u ops empty_mesh = Some m ->
  Forall2 (fun (x : triangle) d => let '(a, b, c) := x in
     (forall t, t <> POLY_YZ -> t <> POLY_XZ -> t <> POLY_XY -> GetSurfaceIntegral (snd d) t = surface_integral (mono t) a b c) /\
     scal3 (sqrt (dot3 (area2 a b c) (area2 a b c))) (fst d) = area2 a b c)
   (soup_of (verts m) (faces m)) (fdata m).
Proof.
  intros u ops m H. destruct (run_coherent u ops _ _ (empty_coherent u) H) as [F _]. rewrite F. unfold soup_of.
  induction (faces m) as [|[[a b] c] fs IH]; cbn [map]; constructor; [|exact IH]. split.
  - intros t T1 T2 T3. apply face_integral. repeat split; assumption.
  - apply normal_area.
Qed.
Theorem C107_mixed_monomials_refuted : forall t, t = POLY_YZ \/ t = POLY_XZ \/ t = POLY_XY ->
  exists p0 p1 p2, GetSurfaceIntegral (CalcFacePolynomialIntegrals p0 p1 p2) t <> surface_integral (mono t) p0 p1 p2.
Proof. intros t T. apply mixed_wrong. intros (A & B & C). tauto. Qed.

(** ** C31 *)
Definition in_plane (p : polygon) : list vec := map (fun v => GetPointPositionInFrame (pl_frame (pg_plane p)) v NWU) (Pg_GetVertexList p NWU).
Lemma in_plane_path u vs fc p : FrPolygon_make u vs fc = Some p -> ComputeSurfacePolynomialIntegrals u (in_plane p) = Some (pg_ints p).
Proof.
  unfold FrPolygon_make. destruct (FrPlane_cloud _ NWU); [|discriminate]. destruct (all_planar _ _); [|discriminate].
  destruct (ComputeSurfacePolynomialIntegrals _ _) eqn:E; [|discriminate]. intros H; injection H as <-. unfold in_plane, Pg_GetVertexList. cbn [pg_plane pg_verts pg_ints].
  replace (map (swap_if NWU) (map (swap_if fc) vs)) with (map (swap_if fc) vs); [exact E|]. rewrite map_map. apply map_ext; reflexivity.
Qed.
Lemma in_plane_closed u vs fc p : FrPolygon_make u vs fc = Some p -> closed_list vs -> closed_list (in_plane p).
Proof.
  intros H C. unfold in_plane, Pg_GetVertexList. apply closed_map, closed_map.
  unfold FrPolygon_make in H. destruct (FrPlane_cloud _ NWU); [|discriminate]. destruct (all_planar _ _); [|discriminate].
  destruct (ComputeSurfacePolynomialIntegrals _ _); [|discriminate]. injection H as <-. apply closed_map, C.
Qed.
(** Integrals of 1, x, y, xy, x^2, y^2 over every closed polygon, in the coordinates of its plane,
    for every number of vertices, every fan apex o and both frame conventions.
    Separate: the monomials of degree three, see the next theorems. *)
Theorem C31_polygon_integrals : forall u vs fc p o, FrPolygon_make u vs fc = Some p -> closed_list vs ->
  let I t := fan (mono t) o (in_plane p) in
  j1 (pg_ints p) = I POLY_1 /\ jx (pg_ints p) = I POLY_X /\ jy (pg_ints p) = I POLY_Y /\
  jxy (pg_ints p) = I POLY_XY /\ jx2 (pg_ints p) = I POLY_X2 /\ jy2 (pg_ints p) = I POLY_Y2.
Proof.
  intros u vs fc p o H C. cbv zeta. pose proof (in_plane_closed u vs fc p H C) as C'. destruct (compute_path _ _ _ (in_plane_path u vs fc p H)) as (A1 & A2 & A3 & A4 & A5 & A6 & _).
  rewrite (fan_closed _ _ o _ exact_1 C'), (fan_closed _ _ o _ exact_x C'), (fan_closed _ _ o _ exact_y C'), (fan_closed _ _ o _ exact_xy C'), (fan_closed _ _ o _ exact_x2 C'), (fan_closed _ _ o _ exact_y2 C'). auto 10.
Qed.
(** For points of a common plane the area is the length of the vector area, and the plane of the
    polygon is that plane. *)
Theorem C31_polygon_area : forall u vs p, FrPolygon_make u vs NWU = Some p -> closed_list vs -> coplanar vs ->
  Pg_GetArea p = sqrt (dot3 (vector_area vs) (vector_area vs)) /\
  unit3 (Pl_GetNormal (pg_plane p) NWU) /\ vector_area vs = scal3 (Pg_GetArea p) (Pl_GetNormal (pg_plane p) NWU) /\
  (forall v, In v (in_plane p) -> vz v = 0).
Proof.
  intros u vs p H C CP. destruct (make_polygon u vs p C H (make_nonzero u vs p C H)) as (n & e & f & OK & PL). specialize (PL CP).
  pose proof (area_contribution p vs n e f OK C PL) as A. split; [exact A|]. unfold Pl_GetNormal; cbn [swap_if IsNED]. rewrite (po_normal _ _ _ _ _ OK).
  split; [exact (po_unit _ _ _ _ _ OK)|]. split; [rewrite A; exact (po_area _ _ _ _ _ OK)|].
  intros v Hv. unfold in_plane, Pg_GetVertexList in Hv. rewrite map_map in Hv. apply in_map_iff in Hv as (w & <- & Hw). rewrite (po_verts _ _ _ _ _ OK) in Hw. rewrite (po_frame _ _ _ _ _ OK).
  rewrite pointinv_convert. cbn [convert swap_if IsNED]. apply (local_z f n e (po_unit _ _ _ _ _ OK) (po_rot _ _ _ _ _ OK) (po_axis _ _ _ _ _ OK) (po_pos _ _ _ _ _ OK)). apply PL, Hw.
Qed.
(** Closed coplanar lists with a non-zero vector area are accepted. *)
Theorem C31_polygon_accepted : forall u vs, closed_list vs -> coplanar vs -> vector_area vs <> origin -> exists p, FrPolygon_make u vs NWU = Some p.
Proof. intros. apply polygon_total; assumption. Qed.
Lemma hull_rim_ok : closed_list hull_rim /\ coplanar hull_rim /\ vector_area hull_rim = V 0 0 4.
Proof.
  split; [reflexivity|]. split.
  - exists (V 0 0 1), 0. split; [intros H; injection H; lra|]. intros p Hp. cbn in Hp. repeat (destruct Hp as [<-|Hp]; [unfold dot3; cbn; ring|]). destruct Hp.
  - cbn [vector_area hull_rim]. apply vec_eq; geo; field.
Qed.
Example C31_not_vacuous : exists p, FrPolygon_make (Junk 1 2 3 4) hull_rim NWU = Some p /\ Pg_GetArea p = 4.
Proof.
  destruct hull_rim_ok as (A & B & C). destruct (polygon_total (Junk 1 2 3 4) hull_rim A B) as (p & P); [rewrite C; intros H; injection H; lra|].
  exists p. split; [exact P|]. rewrite (proj1 (C31_polygon_area _ _ _ P A B)), C. replace (dot3 (V 0 0 4) (V 0 0 4)) with (4 * 4) by (unfold dot3; cbn; ring). apply sqrt_square. lra.
Qed.
(** NED vertices are the same polygon. *)
Theorem C31_frame_convention : forall u vs, FrPolygon_make u vs NED = FrPolygon_make u (map (convert NED) vs) NWU /\
  forall p, FrPolygon_make u vs NED = Some p -> Pg_GetVertexList p NED = vs.
Proof.
  intros u vs. split.
  - unfold FrPolygon_make. rewrite map_map. replace (map (fun x => swap_if NWU (convert NED x)) vs) with (map (swap_if NED) vs); [reflexivity|]. apply map_ext. intros []; apply vec_eq; geo; ring.
  - intros p. unfold FrPolygon_make. destruct (FrPlane_cloud _ NWU); [|discriminate]. destruct (all_planar _ _); [|discriminate].
    destruct (ComputeSurfacePolynomialIntegrals _ _); [|discriminate]. intros H; injection H as <-. unfold Pg_GetVertexList. cbn [pg_verts]. rewrite map_map. rewrite <- (map_id vs) at 2. apply map_ext. intros []; apply vec_eq; geo; ring.
Qed.
(** Degree three: the integrals of x^2 y and x y^2 are off by what the uninitialised variables
    held, so they can be anything; those of x^3 and y^3 are wrong even with zeros there. *)
Theorem C108_uninitialised_refuted : forall l j0 w1 w2, ComputeSurfacePolynomialIntegrals (Junk 0 0 0 0) l = Some j0 ->
  exists u j, ComputeSurfacePolynomialIntegrals u l = Some j /\ jx2y j = w1 /\ jy2x j = w2.
Proof.
  intros l j0 w1 w2 H. exists (Junk (60 * (w1 - path ex2y l)) (- 60 * (w2 - path ey2x l)) 0 0).
  destruct l as [|a l]; [discriminate|]. eexists. split; [reflexivity|].
  destruct (compute_path (Junk (60 * (w1 - path ex2y (a :: l))) (- 60 * (w2 - path ey2x (a :: l))) 0 0) (a :: l) _ eq_refl) as (_ & _ & _ & _ & _ & _ & A & B & _).
  rewrite A, B. cbn [u_x2y u_y2x]. split; field.
Qed.
Theorem C108_cubic_refuted : exists l j, closed_list l /\ ComputeSurfacePolynomialIntegrals (Junk 0 0 0 0) l = Some j /\
  jx3 j <> fan (mono POLY_X3) (V 0 0 0) l /\ jy3 j <> fan (mono POLY_Y3) (V 0 0 0) l.
Proof.
  exists [V 0 0 0; V 1 0 0; V 1 1 0; V 0 1 0; V 0 0 0]. eexists. split; [reflexivity|]. split; [reflexivity|].
  cbn [jx3 jy3 poly_loop fan vx vy vz]. rewrite !over_mono. unfold omono, moment3, cross2. cbn [fac1 fac2 fac3 vx vy vz u_x3 u_y3]. split; lra.
Qed.

(** ** C32 *)
Theorem C32_signed_tetrahedra : forall s, volume s = sum (map (fun t => let '(a, b, c) := t in det3 a b c / 6) s).
Proof. intros s. unfold volume, volume_integral. apply sum_ext. intros [[a b] c] _. apply tet_one. Qed.
(** IsWatertight says that every directed edge of a face is met by the opposite edge of a face. *)
Theorem C32_watertight_test : forall m, IsWatertight m = true <->
  (forall a b, In (a, b) (mesh_edges (faces m)) -> In (b, a) (mesh_edges (faces m))).
Proof. exact watertight_iff. Qed.
(** Closed meshes, after any history. *)
Theorem C32_closed_mesh : forall u ops m, mesh_run u ops empty_mesh = Some m -> consistent (faces m) -> IsWatertight m = true ->
  let s := soup_of (verts m) (faces m) in
  watertight s /\ (exists m1, GetVolume u m = Some (volume s, m1)) /\
  (exists m2, GetArea u m = Some (sum (map triangle_area s), m2)) /\
  (volume s <> 0 -> exists m3, GetCOG u m = Some (centroid s, m3)).
Proof. intros u ops m H. apply closed_values. exact (run_coherent u ops _ _ (empty_coherent u) H). Qed.
(** Meshes with holes: the boundary polygons returned by GetBoundaryPolygonSet close the mesh, and
    volume, area and centre of gravity are those of the closed surface. *)
Theorem C32_mesh_with_holes : forall u ops m ps m0, mesh_run u ops empty_mesh = Some m -> consistent (faces m) -> simple_borders (faces m) ->
  GetBoundaryPolygonSet u m = Some (ps, m0) ->
  let holes := map (fun p => Pg_GetVertexList p NWU) ps in
  List.Forall coplanar holes ->
  let s := soup_of (verts m) (faces m) ++ caps holes in
  watertight s /\ (exists m1, GetVolume u m = Some (volume s, m1)) /\
  (exists m2, GetArea u m = Some (sum (map triangle_area (soup_of (verts m) (faces m))) + sum (map (fun l => sqrt (dot3 (vector_area l) (vector_area l))) holes), m2)) /\
  (volume s <> 0 -> exists m3, GetCOG u m = Some (centroid s, m3)).
Proof.
  intros u ops m ps m0 H O S1 E. cbv zeta. pose proof (run_coherent u ops _ _ (empty_coherent u) H) as C.
  rewrite get_polys in E by exact C. destruct (CalcBoundaryPolygonSet u m) as [ps'|] eqn:K; [|discriminate]. injection E as -> <-.
  assert (EV : map (fun p => Pg_GetVertexList p NWU) ps = map pg_verts ps).
  { apply map_ext. intros p. unfold Pg_GetVertexList. rewrite <- (map_id (pg_verts p)) at 2. apply map_ext; reflexivity. }
  rewrite EV. intros CO. destruct (capped_facts u m ps C O S1 K CO) as (W & _). split; [exact W|].
  split; [eexists; apply (capped_volume u m ps C O S1 K CO)|]. split; [eexists; apply (capped_area u m ps C O S1 K CO)|].
  intros NZ. eexists. apply (capped_cog u m ps C O S1 K CO NZ).
Qed.
(** The boundary loops of a consistently oriented mesh with simple borders are always found: the
    search for the polygons fails only if one of them is rejected by FrPolygon. *)
Theorem C32_boundary_found : forall vs fs, consistent fs -> simple_borders fs ->
  exists holes, List.Forall closed_list holes /\ watertight (soup_of vs fs ++ caps holes) /\
  (List.Forall (fun l => coplanar l /\ vector_area l <> origin) holes -> forall u, exists ps m, GetBoundaryPolygonSet u (MLoad empty_mesh vs fs) = Some (ps, m) /\
     map (fun p => Pg_GetVertexList p NWU) ps = holes).
Proof.
  intros vs fs O S1. destruct (loops_exist vs fs (consistent_oriented _ O) (simple_simple _ O S1)) as (ls & A1 & A2 & A3).
  exists (map (loop_points vs) ls). split; [exact A2|]. split; [exact A3|]. intros CP u.
  rewrite load_empty, get_polys by apply update_coherent. unfold CalcBoundaryPolygonSet. cbn [UpdateAllProperties faces verts]. rewrite A1.
  assert (M : forall hs, List.Forall closed_list hs -> List.Forall (fun l => coplanar l /\ vector_area l <> origin) hs -> exists ps, make_all u hs = Some ps /\ map (fun p => Pg_GetVertexList p NWU) ps = hs).
  { clear. induction 1 as [|l hs C _ IH]; intros CP; [exists nil; split; reflexivity|]. inversion CP as [|? ? [P1 P2] P3]; subst. destruct (IH P3) as (ps & E1 & E2). destruct (polygon_total (u l) l C P1 P2) as (p & Ep).
    exists (p :: ps). cbn [make_all map]. rewrite Ep, E1, E2. split; [reflexivity|]. f_equal. unfold Pg_GetVertexList. rewrite (make_verts _ _ _ Ep). rewrite <- (map_id l) at 2. apply map_ext; reflexivity. }
  destruct (M _ A2 CP) as (ps & E1 & E2). rewrite E1. eauto.
Qed.
(** Closed meshes keep their volume, and their centre of gravity follows, under any sequence of
    translations and rotations mixed with queries. *)
Theorem C32_rigid_motion : forall u ops0 m ops, mesh_run u ops0 empty_mesh = Some m -> consistent (faces m) -> IsWatertight m = true -> indices_ok (verts m) (faces m) ->
  List.Forall rigid_op ops ->
  exists m', mesh_run u ops m = Some m' /\
    option_map fst (GetVolume u m') = option_map fst (GetVolume u m) /\
    (forall c m1, volume (soup_of (verts m) (faces m)) <> 0 -> GetCOG u m = Some (c, m1) -> option_map fst (GetCOG u m') = Some (ops_motion ops c)).
Proof.
  intros u ops0 m ops H O W I F. pose proof (run_coherent u ops0 _ _ (empty_coherent u) H) as C.
  destruct (closed_motion u ops m F C O W I) as (m' & E & (m1 & V1) & G1). destruct (closed_values u m C O W) as (_ & (m2 & V2) & _ & G2).
  exists m'. split; [exact E|]. rewrite V1, V2. split; [reflexivity|]. intros c m3 NZ K. destruct (G1 NZ) as (m4 & ->). destruct (G2 NZ) as (m5 & Q). rewrite Q in K. injection K as <- _. reflexivity.
Qed.
(** The same for meshes with holes and one motion, when the boundary polygons are accepted before and after. *)
Theorem C32_rigid_motion_holes : forall u ops0 m o m' ps m0 ps' m0', mesh_run u ops0 empty_mesh = Some m -> consistent (faces m) -> simple_borders (faces m) -> indices_ok (verts m) (faces m) ->
  rigid_op o -> mesh_step u o m = Some m' ->
  GetBoundaryPolygonSet u m = Some (ps, m0) -> GetBoundaryPolygonSet u m' = Some (ps', m0') -> List.Forall coplanar (map pg_verts ps) ->
  exists v m1 m2, GetVolume u m = Some (v, m1) /\ GetVolume u m' = Some (v, m2) /\
   (v <> 0 -> exists c m3 m4, GetCOG u m = Some (c, m3) /\ GetCOG u m' = Some (op_motion o c, m4)).
Proof.
  intros u ops0 m o m' ps m0 ps' m0' H O S1 I Ro St E E' CO. pose proof (run_coherent u ops0 _ _ (empty_coherent u) H) as C. pose proof (step_coherent u o m m' C St) as C'.
  rewrite get_polys in E, E' by assumption. destruct (CalcBoundaryPolygonSet u m) as [q|] eqn:K; [|discriminate]. injection E as -> <-. destruct (CalcBoundaryPolygonSet u m') as [q'|] eqn:K'; [|discriminate]. injection E' as -> <-.
  destruct (rigid_op_rig o Ro) as (r & t & R1 & R2). pose proof (rigid_step u o m m' C Ro St) as [P1 P2].
  assert (MV : moved_mesh (rig r t) m m') by (split; [rewrite P1; apply map_ext; exact R2|exact P2]).
  destruct (moved_values u r t m m' ps ps' R1 MV I C C' O S1 K K' CO) as (_ & V1 & V2 & G). eexists _, _, _. split; [exact V1|]. split; [exact V2|].
  intros NZ. destruct (G NZ) as [G1 G2]. eexists _, _, _. split; [exact G1|]. rewrite R2. exact G2.
Qed.
(** CreateBox, moved in any way. *)
Theorem C32_box : forall u Lx Ly Lz ops, List.Forall rigid_op ops ->
  exists m, mesh_run u (MOBox Lx Ly Lz :: ops) empty_mesh = Some m /\ IsWatertight m = true /\
    option_map fst (GetVolume u m) = Some (Lx * Ly * Lz) /\
    (Lx * Ly * Lz <> 0 -> option_map fst (GetCOG u m) = Some (ops_motion ops origin)).
Proof.
  intros u Lx Ly Lz ops F. destruct (box_facts Lx Ly Lz u) as (C & O & W & I & V1 & _). cbn [mesh_run mesh_step].
  destruct (closed_motion u ops _ F C O W I) as (m & E & (m1 & K1) & K2). exists m. split; [exact E|].
  destruct (rigid_run u ops _ m F C E) as (r & t & _ & _ & R3 & _). split; [unfold IsWatertight, HasBoundaries in *; rewrite (proj2 R3); exact W|].
  rewrite K1, V1. split; [reflexivity|]. intros NZ. rewrite V1 in K2. destruct (K2 NZ) as (m2 & ->). rewrite (box_centroid Lx Ly Lz NZ). reflexivity.
Qed.
Example C32_not_vacuous : exists m, mesh_run (fun _ => Junk 1 2 3 4) [MOBox 2 3 4; MOTranslate (V 1 2 3); MOGetVolume; MORotateAngles 1 2 3; MOTranslate (V 0 0 5)] empty_mesh = Some m /\
  option_map fst (GetVolume (fun _ => Junk 1 2 3 4) m) = Some 24.
Proof.
  destruct (C32_box (fun _ => Junk 1 2 3 4) 2 3 4 [MOTranslate (V 1 2 3); MOGetVolume; MORotateAngles 1 2 3; MOTranslate (V 0 0 5)]) as (m & A & _ & B & _); [repeat constructor|].
  exists m. split; [exact A|]. rewrite B. f_equal. ring.
Qed.
(** A hull without lid: one boundary polygon, the rim *)
Lemma hull_ok : consistent hull_faces /\ simple_borders hull_faces /\ indices_ok hull_verts hull_faces /\
  forall u, exists p m, GetBoundaryPolygonSet u (MLoad empty_mesh hull_verts hull_faces) = Some ([p], m) /\ pg_verts p = hull_rim.
Proof.
  assert (O : consistent hull_faces) by (apply nodupb_ok; vm_compute; reflexivity).
  split; [exact O|]. split.
  { intros a b c H1 H2. apply border_in in H1. apply border_in in H2. vm_compute in H1, H2.
    repeat (destruct H1 as [H1|H1]; [injection H1 as <- <-; repeat (destruct H2 as [H2|H2]; [try discriminate; injection H2 as H2; congruence|]); destruct H2|]). destruct H1. }
  split. { intros a b c H. cbn in H. cbn [hull_verts length]. repeat (destruct H as [H|H]; [injection H as <- <- <-; lia|]). destruct H. }
  intros u. rewrite load_empty, get_polys by apply update_coherent. unfold CalcBoundaryPolygonSet. cbn [UpdateAllProperties faces verts].
  assert (L : boundary_loops (length (boundary_halfedges hull_faces)) (boundary_halfedges hull_faces) nil = Some [[(0, 1); (1, 2); (2, 3); (3, 0)]%nat]) by (vm_compute; reflexivity).
  rewrite L. cbn [map make_all]. change (loop_points hull_verts [(0, 1); (1, 2); (2, 3); (3, 0)]%nat) with hull_rim.
  destruct hull_rim_ok as (A & B & C). destruct (polygon_total (u hull_rim) hull_rim A B) as (p & P); [rewrite C; intros H; injection H; lra|].
  rewrite P. eexists _, _. split; [reflexivity|]. exact (make_verts _ _ _ P).
Qed.
Lemma hull_volume : volume (soup_of hull_verts hull_faces ++ caps [hull_rim]) = 4.
Proof. rewrite C32_signed_tetrahedra. cbn. unfold sum, det3, dot3, cross3. cbn. field. Qed.
Lemma as_listed p : Pg_GetVertexList p NWU = pg_verts p.
Proof. unfold Pg_GetVertexList. rewrite <- (map_id (pg_verts p)) at 2. apply map_ext; reflexivity. Qed.
Example C32_holes_not_vacuous : forall u, exists m m1, mesh_run u [MOLoad hull_verts hull_faces] empty_mesh = Some m /\ IsWatertight m = false /\ GetVolume u m = Some (4, m1).
Proof.
  intros u. destruct hull_ok as (O & B & I & G). destruct (G u) as (p & m0 & E & Ev). exists (MLoad empty_mesh hull_verts hull_faces).
  assert (F : faces (MLoad empty_mesh hull_verts hull_faces) = hull_faces) by (rewrite load_empty; reflexivity).
  assert (Fv : verts (MLoad empty_mesh hull_verts hull_faces) = hull_verts) by (rewrite load_empty; reflexivity).
  destruct (C32_mesh_with_holes u [MOLoad hull_verts hull_faces] (MLoad empty_mesh hull_verts hull_faces) [p] m0 eq_refl) as (_ & (m1 & K) & _); try (rewrite F; assumption); try assumption.
  { cbn [map]. rewrite as_listed, Ev. constructor; [exact (proj1 (proj2 hull_rim_ok))|constructor]. }
  exists m1. split; [reflexivity|]. split; [unfold IsWatertight, HasBoundaries; rewrite F; reflexivity|]. rewrite K. cbn [map]. rewrite as_listed, Ev, F, Fv, hull_volume. reflexivity.
Qed.

(** ** C33 *)
(** Whatever was done to the mesh before: if its faces and some triangles of the plane z = 0 together
    are watertight, the pressure force is vertical, upwards and weighs the enclosed volume. *)
Theorem C33_archimedes : forall u ops m waterplane rho g fc, mesh_run u ops empty_mesh = Some m ->
  flat waterplane -> watertight (soup_of (verts m) (faces m) ++ waterplane) ->
  GetHydrostaticForceInWorld m rho g fc = convert fc (V 0 0 (rho * g * volume (soup_of (verts m) (faces m) ++ waterplane))).
Proof. intros u ops m cp rho g fc H F W. apply archimedes; [|exact F|exact W]. exact (proj1 (run_coherent u ops _ _ (empty_coherent u) H)). Qed.
(** The moment of the pressure is that of this force applied at the centre of the enclosed volume. *)
Theorem C33_centre_of_buoyancy : forall s waterplane rho g, flat waterplane -> watertight (s ++ waterplane) -> volume (s ++ waterplane) <> 0 ->
  pressure_moment rho g s = moment_of (centroid (s ++ waterplane)) (V 0 0 (rho * g * volume (s ++ waterplane))).
Proof. intros. apply buoyancy_moment; assumption. Qed.
(** GetVolume and GetCOG of the clipped mesh give volume and centre of buoyancy when all holes of
    the mesh lie in the plane z = 0. *)
Theorem C33_from_the_mesh : forall u ops m ps m0 rho g, mesh_run u ops empty_mesh = Some m -> consistent (faces m) -> simple_borders (faces m) ->
  GetBoundaryPolygonSet u m = Some (ps, m0) -> (forall p v, In p ps -> In v (Pg_GetVertexList p NWU) -> vz v = 0) ->
  exists v m1, GetVolume u m = Some (v, m1) /\ GetHydrostaticForceInWorld m rho g NWU = V 0 0 (rho * g * v) /\
    (v <> 0 -> exists c m2, GetCOG u m = Some (c, m2) /\ pressure_moment rho g (soup_of (verts m) (faces m)) = moment_of c (V 0 0 (rho * g * v))).
Proof.
  intros u ops m ps m0 rho g H O S1 E Z.
  assert (CO : List.Forall coplanar (map (fun p => Pg_GetVertexList p NWU) ps)).
  { apply Forall_forall. intros l Hl. apply in_map_iff in Hl as (p & <- & Hp). exists (V 0 0 1), 0. split; [intros K; injection K; lra|]. intros v Hv. unfold dot3; cbn [vx vy vz]. rewrite (Z p v Hp Hv). ring. }
  destruct (C32_mesh_with_holes u ops m ps m0 H O S1 E CO) as (W & (m1 & V1) & _ & G).
  set (cp := caps (map (fun p => Pg_GetVertexList p NWU) ps)) in *.
  assert (F : flat cp).
  { assert (FS : forall o l a b c, vz o = 0 -> (forall v, In v l -> vz v = 0) -> In (a, b, c) (fan_soup o l) -> vz a = 0 /\ vz b = 0 /\ vz c = 0).
    { clear. intros o l. induction l as [|x [|y l] IH]; intros a b c Ho Hl Hi; [destruct Hi|destruct Hi|]. destruct Hi as [Hi|Hi]; [injection Hi as <- <- <-; repeat split; auto; apply Hl; cbn; auto|]. apply (IH a b c Ho); [|exact Hi]. intros v Hv. apply Hl. right. exact Hv. }
    intros a b c Hi. unfold cp, caps in Hi. apply in_concat in Hi as (t & Ht & Hi). apply in_map_iff in Ht as (l & <- & Hl). apply in_map_iff in Hl as (p & <- & Hp). unfold cap in Hi.
    refine (FS _ _ a b c _ (fun v => Z p v Hp) Hi). destruct (Pg_GetVertexList p NWU) as [|q r] eqn:Q; [reflexivity|]. cbn [hd]. apply (Z p q Hp). rewrite Q. left. reflexivity. }
  exists (volume (soup_of (verts m) (faces m) ++ cp)), m1. split; [exact V1|]. split.
  - rewrite (C33_archimedes u ops m cp rho g NWU H F W). reflexivity.
  - intros NZ. destruct (G NZ) as (m3 & G3). eexists _, _. split; [exact G3|]. apply C33_centre_of_buoyancy; assumption.
Qed.
Example C33_not_vacuous : forall u rho g, exists m, mesh_run u [MOLoad hull_verts hull_faces] empty_mesh = Some m /\ GetHydrostaticForceInWorld m rho g NED = V 0 0 (- (rho * g * 4)).
Proof.
  intros u rho g. exists (MLoad empty_mesh hull_verts hull_faces). split; [reflexivity|].
  assert (F : faces (MLoad empty_mesh hull_verts hull_faces) = hull_faces) by (rewrite load_empty; reflexivity).
  assert (Fv : verts (MLoad empty_mesh hull_verts hull_faces) = hull_verts) by (rewrite load_empty; reflexivity).
  destruct hull_ok as (O & B & I & G). destruct (G u) as (p & m0 & E & Ev).
  destruct (C32_mesh_with_holes u [MOLoad hull_verts hull_faces] (MLoad empty_mesh hull_verts hull_faces) [p] m0 eq_refl) as (W & _); try (rewrite F; assumption); try assumption.
  { cbn [map]. rewrite as_listed, Ev. constructor; [exact (proj1 (proj2 hull_rim_ok))|constructor]. }
  cbn [map] in W. rewrite as_listed, Ev in W.
  rewrite (C33_archimedes u [MOLoad hull_verts hull_faces] _ (caps [hull_rim]) rho g NED eq_refl); [| |exact W].
  - rewrite F, Fv, hull_volume. apply vec_eq; cbn; ring.
  - intros a b c H. cbn in H. repeat (destruct H as [H|H]; [injection H as <- <- <-; cbn; auto|]). destruct H.
Qed.

(** ** C50 *)
(** The torque computed for a closed box just under the surface is not zero although the
    moment of the pressure is that of a vertical force through the origin of the axes. *)
Theorem C50_torque_refuted : forall u rho g, rho * g <> 0 -> exists m, mesh_run u [MOBox 2 2 2; MOTranslate (V 0 0 (-1))] empty_mesh = Some m /\
  watertight (soup_of (verts m) (faces m)) /\ pressure_moment rho g (soup_of (verts m) (faces m)) = origin /\ GetHydrostaticTorqueInWorld m rho g NWU = V 0 0 (- (32/3) * (rho * g)).
Proof.
  intros u rho g NZ. destruct (mesh_run u [MOBox 2 2 2; MOTranslate (V 0 0 (-1))] empty_mesh) as [m|] eqn:E; [|discriminate E]. exists m. split; [reflexivity|].
  destruct (C32_box u 2 2 2 [MOTranslate (V 0 0 (-1))]) as (m' & E' & W & Vo & G); [repeat constructor|]. rewrite E in E'. injection E' as <-.
  pose proof (run_coherent u _ _ _ (empty_coherent u) E) as C.
  assert (O : consistent (faces m)). { cbn in E. injection E as <-. apply nodupb_ok. vm_compute. reflexivity. }
  destruct (C32_closed_mesh u _ m E O W) as (W2 & (m1 & V1) & _ & G1). split; [exact W2|].
  rewrite V1 in Vo. cbn [option_map fst] in Vo. injection Vo as Vo.
  split.
  - pose proof (C33_centre_of_buoyancy (soup_of (verts m) (faces m)) nil rho g) as P. rewrite app_nil_r in P.
    rewrite P; [|intros a b c []|exact W2|rewrite Vo; lra]. destruct (G1 ltac:(rewrite Vo; lra)) as (m3 & G3). specialize (G ltac:(lra)). rewrite G3 in G. cbn [option_map fst] in G. match type of G with Some ?a = Some ?b => assert (GE : a = b) by congruence end; rewrite GE.
    unfold ops_motion, moment_of. cbn [fold_left op_motion]. apply vec_eq; geo; ring.
  - rewrite (torque_terms m rho g (proj1 C)). clear -E. cbn in E. injection E as <-.
    cbn [verts faces UpdateAllProperties]. cbn. unfold sum3, torque_term, corner0, corner1, corner2. cbn. unfold wrong_mix, square_mix, area2. apply vec_eq; geo; field.
Qed.

(** ** C51 *)
(** Solid of density rho bounded by a closed mesh: mass, centre and the inertia matrix at the mesh origin. *)
Theorem C51_solid_inertia : forall u ops m rho, mesh_run u ops empty_mesh = Some m -> consistent (faces m) -> IsWatertight m = true ->
  let s := soup_of (verts m) (faces m) in volume s <> 0 ->
  exists I, GetPlainInertiaTensor u m rho = Some I /\
    k_mass I = rho * volume s /\ k_cog I = centroid s /\
    kxx I = rho * (volume_integral (fun p => vy p * vy p) s + volume_integral (fun p => vz p * vz p) s) /\
    kyy I = rho * (volume_integral (fun p => vx p * vx p) s + volume_integral (fun p => vz p * vz p) s) /\
    kzz I = rho * (volume_integral (fun p => vx p * vx p) s + volume_integral (fun p => vy p * vy p) s) /\
    kxy I = - rho * volume_integral (fun p => vx p * vy p) s /\
    kxz I = - rho * volume_integral (fun p => vx p * vz p) s /\
    kyz I = - rho * volume_integral (fun p => vy p * vz p) s.
Proof.
  intros u ops m rho H O W s NZ. pose proof (run_coherent u ops _ _ (empty_coherent u) H) as C. eexists. split; [exact (closed_inertia u m rho C O W NZ)|].
  cbn [k_mass k_cog kxx kyy kzz kxy kxz kyz]. change (mesh_soup m) with s.
  assert (ZX : volume_integral (fun p => vz p * vx p) s = volume_integral (fun p => vx p * vz p) s) by (f_equal; apply FunctionalExtensionality.functional_extensionality; intros p; ring).
  rewrite ZX. repeat split; ring.
Qed.
Example C51_not_vacuous : forall u rho, exists m I, mesh_run u [MOBox 2 3 4] empty_mesh = Some m /\ GetPlainInertiaTensor u m rho = Some I /\ k_mass I = rho * 24 /\ k_cog I = origin.
Proof.
  intros u rho. destruct (C32_box u 2 3 4 []) as (m & E & W & Vo & G); [constructor|].
  assert (O : consistent (faces m)). { cbn in E. injection E as <-. apply nodupb_ok. vm_compute. reflexivity. }
  destruct (C32_closed_mesh u _ m E O W) as (_ & (m1 & V1) & _ & G1). rewrite V1 in Vo. cbn [option_map fst] in Vo. injection Vo as Vo.
  destruct (C51_solid_inertia u _ m rho E O W) as (I & EI & A & B & _); [rewrite Vo; lra|]. exists m, I. split; [exact E|]. split; [exact EI|].
  rewrite A, B, Vo. split; [ring|]. destruct (G1 ltac:(rewrite Vo; lra)) as (m3 & G3). specialize (G ltac:(lra)). rewrite G3 in G. cbn [option_map fst] in G. match type of G with Some ?a = Some ?b => assert (GE : a = b) by congruence end; rewrite GE. reflexivity.
Qed.
(** The thin shell is given the mass of the full volume, whatever its thickness. *)
Theorem C121_shell_mass_refuted : forall u density thickness, density <> 0 -> thickness <> 1/3 ->
  exists m I a m1, mesh_run u [MOBox 2 2 2] empty_mesh = Some m /\ GetShellInertiaTensor u m density thickness = Some I /\
    GetArea u m = Some (a, m1) /\ a = 24 /\ k_mass I = density * 8 /\ k_mass I <> density * thickness * a.
Proof.
  intros u d t D T. destruct (C32_box u 2 2 2 []) as (m & E & W & Vo & G); [constructor|].
  assert (O : consistent (faces m)). { cbn in E. injection E as <-. apply nodupb_ok. vm_compute. reflexivity. }
  pose proof (run_coherent u _ _ _ (empty_coherent u) E) as C.
  destruct (C32_closed_mesh u _ m E O W) as (_ & (m1 & V1) & (m2 & A1) & G1). pose proof Vo as Vo'. rewrite V1 in Vo. cbn [option_map fst] in Vo. injection Vo as Vo.
  pose proof (closed_calc u m W) as K.
  assert (C1 : coherent u (filled m nil)) by (apply filled_coherent; [apply C|exact K]).
  destruct (closed_values u (filled m nil) C1 O W) as (_ & (m4 & V4) & _).
  pose proof (capped_volume u (filled m nil) nil C1 O (closed_borders m W) K ltac:(constructor)) as V5. rewrite V4 in V5. injection V5 as _ ->.
  assert (C2 : coherent u (filled (filled m nil) nil)) by (apply filled_coherent; [apply C1|exact K]).
  destruct (closed_values u _ C2 O W) as (_ & _ & _ & G6). change (mesh_soup (filled (filled m nil) nil)) with (soup_of (verts m) (faces m)) in G6. destruct (G6 ltac:(rewrite Vo; lra)) as (m6 & G7).
  assert (AR : sum (map triangle_area (soup_of (verts m) (faces m))) = 24).
  { clear -E. cbn in E. injection E as <-. cbn [verts faces UpdateAllProperties]. cbn. unfold sum, triangle_area, area2, dot3, cross3, minus3. cbn.
    repeat match goal with |- context [sqrt ?e] => lazymatch e with 4 * 4 => fail | _ => replace e with (4 * 4) by field end end. rewrite sqrt_square by lra. field. }
  eexists m, _, _, _. split; [exact E|]. split.
  - unfold GetShellInertiaTensor. rewrite get_polys by exact C. rewrite K, V4, G7. reflexivity.
  - split; [exact A1|]. rewrite AR. split; [reflexivity|]. cbn [k_mass]. change (mesh_soup (filled m nil)) with (soup_of (verts m) (faces m)). rewrite Vo. split; [ring|]. intros Q. apply T. apply (Rmult_eq_reg_l (24 * d)); lra.
Qed.

(** ** C52 *)
(** What a mesh answers depends only on its vertices and faces: the same as a mesh just loaded. *)
Theorem C52_history_independent : forall u ops m, mesh_run u ops empty_mesh = Some m ->
  let m0 := MLoad empty_mesh (verts m) (faces m) in
  option_map fst (GetVolume u m) = option_map fst (GetVolume u m0) /\ option_map fst (GetCOG u m) = option_map fst (GetCOG u m0) /\
  option_map fst (GetArea u m) = option_map fst (GetArea u m0) /\ option_map fst (GetBoundaryPolygonSet u m) = option_map fst (GetBoundaryPolygonSet u m0) /\
  (forall i t, GetMeshedSurfaceIntegralN m i t = GetMeshedSurfaceIntegralN m0 i t).
Proof. intros u ops m H. apply history. exact (run_coherent u ops _ _ (empty_coherent u) H). Qed.
Theorem C52_bounding_box : forall m, verts m <> nil -> let b := GetBoundingBox m in
  (forall q, In q (verts m) -> xmin b <= vx q <= xmax b /\ ymin b <= vy q <= ymax b /\ zmin b <= vz q <= zmax b) /\
  (exists q, In q (verts m) /\ vx q = xmin b) /\ (exists q, In q (verts m) /\ vx q = xmax b) /\ (exists q, In q (verts m) /\ vy q = ymin b) /\
  (exists q, In q (verts m) /\ vy q = ymax b) /\ (exists q, In q (verts m) /\ vz q = zmin b) /\ (exists q, In q (verts m) /\ vz q = zmax b).
Proof. exact bbox. Qed.
Example C52_not_vacuous : exists m, mesh_run (fun _ => Junk 1 2 3 4) [MOLoad hull_verts hull_faces; MOTranslate (V 0 0 3); MOLoad [V 0 0 9] []] empty_mesh = Some m /\ length (verts m) = 9%nat.
Proof. eexists. split; [reflexivity|]. reflexivity. Qed.
