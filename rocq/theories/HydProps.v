(** Theorems about the hydrostatic properties and the equilibrium solver (C36, C56, C57). *)
From Coq Require Import Reals List Lra Lia Arith Bool.
From Coquelicot Require Import Coquelicot.
From Verif Require Import GeoModel GeoSpec GeoProofs GeoProofs2 GeoProofs3 GeoProofs4 BodyModel BodySpec BodyProofs BodyProofs2 BodyProofs3 MeshModel MeshSpec MeshProofs MeshProofs2 MeshProofs3 MeshProofs4 MeshProofs5 MeshProofs6 MeshProofs7 MeshProofs8 MeshProofs9 MeshProofs10 MeshProofs11 MeshProps HydModel HydSpec HydProofs HydProofs2 HydProofs3 HydProofs4.
Import ListNotations.
Open Scope R_scope.

(** ** C36 *)
(** The stiffness matrix object: whatever it held before, the values set are the ones read, the
    matrix is symmetric, and it multiplies a state as a matrix. *)
Theorem C36_matrix_object : forall d K33 K44 K55 K34 K35 K45, let k := SetNonDiagonal (SetDiagonal d K33 K44 K55) K34 K35 K45 in
  (GetK33 k, GetK44 k, GetK55 k, GetK34 k, GetK35 k, GetK45 k) = (K33, K44, K55, K34, K35, K45) /\
  GetMatrix k = k /\ mt k = k /\ (forall x, StiffMul k x = mv k x) /\ SetStiffnessMatrixMN d (GetMatrix k) = k.
Proof.
  intros [] K33 K44 K55 K34 K35 K45. cbv zeta. repeat split; try reflexivity.
Qed.

(** The hypotheses used below: m is any mesh obtained by operations on meshes (a clipped mesh is the
    result of MOLoad), consistently oriented, its holes are bounded by polygons of the plane z = 0
    run anticlockwise, and it encloses some volume with them. *)
Definition floating (u : list vec -> junk) (m : mesh) (ls : list (list vec)) : Prop :=
  exists ops ps m0, mesh_run u ops empty_mesh = Some m /\ consistent (faces m) /\ simple_borders (faces m) /\ GetBoundaryPolygonSet u m = Some (ps, m0) /\
    ls = map (fun p => Pg_GetVertexList p NWU) ps /\ ls <> nil /\ List.Forall waterline ls /\ volume (soup_of (verts m) (faces m) ++ caps ls) <> 0.
Lemma listed ps : map (fun p => Pg_GetVertexList p NWU) ps = map pg_verts ps.
Proof. apply map_ext. intros p. apply as_listed. Qed.
Lemma floating_ready u m ls h : floating u m ls -> h_mesh h = m -> h_rho h * h_g h <> 0 ->
  exists p0 ps, ls = map pg_verts (p0 :: ps) /\ consistent (faces m) /\ simple_borders (faces m) /\ List.Forall waterline (map pg_verts (p0 :: ps)) /\ volume (soup_of (verts m) (faces m) ++ caps (map pg_verts (p0 :: ps))) <> 0 /\
    ready u p0 ps (verts m) (faces m) h.
Proof.
  intros (ops & ps & m0 & R & O & S1 & G & E & N & WL & NZ) Em RG. rewrite listed in E. destruct ps as [|p0 ps]; [subst; contradiction|]. exists p0, ps. subst ls.
  pose proof (run_coherent u ops _ _ (empty_coherent u) R) as C. rewrite get_polys in G by exact C. destruct (CalcBoundaryPolygonSet u m) as [qs|] eqn:EQ; [|discriminate]. injection G as -> _.
  repeat (split; [assumption || reflexivity|]). unfold ready. rewrite Em. auto.
Qed.
(** Volume, centre of buoyancy, areas, metacentric radii and heights, stiffness coefficients
    about the reduction point P. *)
Theorem C36_hydrostatic_properties : forall u m ls K0 rho g cog P fc, floating u m ls -> rho * g <> 0 ->
  let s := soup_of (verts m) (faces m) ++ caps ls in let G := convert fc cog in let x0 := vx (convert fc P) in let y0 := vy (convert fc P) in
  let W f := waterplane f ls in
  exists h, ComputeProperties u (HP_make_at K0 rho g m cog P fc) = Some h /\
    h_volume h = volume s /\ h_buoyancy h = centroid s /\ h_wparea h = W (fun _ => 1) /\ h_wetarea h = sum (map triangle_area (soup_of (verts m) (faces m))) /\
    vx (h_wpcenter h) = W vx / W (fun _ => 1) /\ vy (h_wpcenter h) = W vy / W (fun _ => 1) /\
    h_rt h = W (fun p => (vy p - y0) * (vy p - y0)) / volume s /\ h_rl h = W (fun p => (vx p - x0) * (vx p - x0)) / volume s /\
    h_gmt h = h_rt h + vz (centroid s) - vz G /\ h_gml h = h_rl h + vz (centroid s) - vz G /\
    GetK33 (h_K h) = rho * g * W (fun _ => 1) /\ GetK34 (h_K h) = rho * g * W (fun p => vy p - y0) /\ GetK35 (h_K h) = - (rho * g * W (fun p => vx p - x0)) /\
    GetK44 (h_K h) = rho * g * volume s * h_gmt h /\ GetK45 (h_K h) = - (rho * g * W (fun p => (vx p - x0) * (vy p - y0))) /\ GetK55 (h_K h) = rho * g * volume s * h_gml h /\
    GetMatrix (h_K h) = h_K h.
Proof.
  intros u m ls K0 rho g cog P fc F RG. cbv zeta. destruct (floating_ready u m ls (HP_make_at K0 rho g m cog P fc) F eq_refl RG) as (p0 & ps & -> & O & S1 & WL & NZ & RD).
  destruct (ready_value u p0 ps _ _ O S1 WL NZ _ RD) as [E _]. eexists. split; [exact E|].
  unfold after, stiff, HP_make_at; cbn [h_rho h_g h_mesh h_volume h_wparea h_wetarea h_wpcenter h_buoyancy h_cog h_draught h_length h_breadth h_lwl h_rt h_rl h_gmt h_gml h_K h_red GetK33 GetK34 GetK35 GetK44 GetK45 GetK55 m00 m01 m02 m11 m12 m22 vx vy vz].
  rewrite !swap_convert. repeat split; ring.
Qed.
(** The constructor without reduction point is the one at the origin. *)
Theorem C36_default_reduction : forall K0 rho g m cog fc, HP_make K0 rho g m cog fc = HP_make_at K0 rho g m (convert fc cog) origin NWU.
Proof. intros K0 rho g m cog fc. unfold HP_make, HP_make_at. rewrite !swap_convert. reflexivity. Qed.
(** Extents of the mesh and length of the waterline. *)
Theorem C36_extents : forall u m ls K0 rho g cog P fc, floating u m ls -> rho * g <> 0 -> verts m <> nil ->
  exists h x0 x1 y0 y1 z0 z1 w0 w1, ComputeProperties u (HP_make_at K0 rho g m cog P fc) = Some h /\
    is_min vx (verts m) x0 /\ is_max vx (verts m) x1 /\ is_min vy (verts m) y0 /\ is_max vy (verts m) y1 /\ is_min vz (verts m) z0 /\ is_max vz (verts m) z1 /\
    is_min vx (concat ls) w0 /\ is_max vx (concat ls) w1 /\
    h_length h = x1 - x0 /\ h_breadth h = y1 - y0 /\ h_draught h = z1 - z0 /\ h_lwl h = w1 - w0 /\ vz (h_wpcenter h) = z1.
Proof.
  intros u m ls K0 rho g cog P fc F RG NV. destruct (floating_ready u m ls (HP_make_at K0 rho g m cog P fc) F eq_refl RG) as (p0 & ps & -> & O & S1 & WL & NZ & RD).
  destruct (ready_value u p0 ps _ _ O S1 WL NZ _ RD) as [E _]. destruct (bbox m NV) as (B0 & B1 & B2 & B3 & B4 & B5 & B6).
  assert (N : forall p, In p (p0 :: ps) -> pg_verts p <> nil).
  { intros p Hp K. rewrite Forall_forall in WL. pose proof (WL (pg_verts p) (in_map pg_verts _ _ Hp)) as [_ A]. rewrite K in A. cbn in A. lra. }
  destruct (xranges_ok p0 ps N) as [X1 X2].
  eexists _, (xmin (GetBoundingBox m)), (xmax (GetBoundingBox m)), (ymin (GetBoundingBox m)), (ymax (GetBoundingBox m)), (zmin (GetBoundingBox m)), (zmax (GetBoundingBox m)), _, _.
  split; [exact E|]. unfold is_min at 1 2 3. unfold is_max at 1 2 3.
  split; [split; [exact B1|intros q Hq; apply (B0 q Hq)]|]. split; [split; [exact B2|intros q Hq; apply (B0 q Hq)]|]. split; [split; [exact B3|intros q Hq; apply (B0 q Hq)]|]. split; [split; [exact B4|intros q Hq; apply (B0 q Hq)]|].
  split; [split; [exact B5|intros q Hq; apply (B0 q Hq)]|]. split; [split; [exact B6|intros q Hq; apply (B0 q Hq)]|]. split; [exact X1|]. split; [exact X2|].
  unfold after, HP_make_at. cbn [h_length h_breadth h_draught h_lwl h_wpcenter h_mesh vz]. repeat (split; [reflexivity|]). split; [|split; reflexivity].
  destruct B5 as (q & Hq & E5). apply Rabs_pos_eq. pose proof (B0 q Hq). lra.
Qed.
(** The matrix is minus the derivative, at the current position, of the vertical force and of the
    moments about the reduction point P under heave, roll and pitch about P, for the wetted surface
    moving with the body and a weight equal to that of the displaced water at the centre of gravity. *)
Theorem C36_stiffness_is_derivative : forall u m ls K0 rho g cog P fc, floating u m ls -> rho * g <> 0 ->
  let wet := soup_of (verts m) (faces m) in let G := convert fc cog in let Q := convert fc P in let w := rho * g * volume (wet ++ caps ls) in
  exists h, ComputeProperties u (HP_make_at K0 rho g m cog P fc) = Some h /\
    derive3 (fun t => load rho g wet w G Q (heave t)) 0 (V (- m00 (h_K h)) (- m10 (h_K h)) (- m20 (h_K h))) /\
    derive3 (fun t => load rho g wet w G Q (roll Q t)) 0 (V (- m01 (h_K h)) (- m11 (h_K h)) (- m21 (h_K h))) /\
    derive3 (fun t => load rho g wet w G Q (pitch Q t)) 0 (V (- m02 (h_K h)) (- m12 (h_K h)) (- m22 (h_K h))).
Proof.
  intros u m ls K0 rho g cog P fc F RG. cbv zeta. pose proof F as (ops & ps' & m0 & RUN & _ & _ & G & Els & _ & _ & _).
  destruct (floating_ready u m ls (HP_make_at K0 rho g m cog P fc) F eq_refl RG) as (p0 & ps & -> & O & S1 & WL & NZ & RD).
  destruct (ready_value u p0 ps _ _ O S1 WL NZ _ RD) as [E _]. eexists. split; [exact E|].
  pose proof (run_coherent u ops _ _ (empty_coherent u) RUN) as C. destruct RD as (_ & _ & _ & EQ & _). cbn [HP_make_at h_mesh] in EQ.
  assert (CO : List.Forall coplanar (map pg_verts (p0 :: ps))) by (apply Forall_forall; intros l Hl; apply waterline_coplanar; rewrite Forall_forall in WL; apply WL, Hl).
  destruct (capped_facts u m (p0 :: ps) C O S1 EQ CO) as (WT & _).
  destruct (calc_polys u m (p0 :: ps) (consistent_oriented _ O) (simple_simple _ O S1) EQ) as (ls' & _ & CL & _ & A4). subst ls'.
  assert (Z : forall l v, In l (map pg_verts (p0 :: ps)) -> In v l -> vz v = 0) by (intros l v Hl; rewrite Forall_forall in WL; apply (WL l Hl)).
  set (ls := map pg_verts (p0 :: ps)) in *. set (wet := soup_of (verts m) (faces m)) in *. change (mesh_soup m) with wet in WT.
  pose proof (heave_column rho g (rho * g * volume (wet ++ caps ls)) wet ls (convert fc cog) (convert fc P) WT CL Z NZ) as D1.
  pose proof (roll_column rho g (rho * g * volume (wet ++ caps ls)) wet ls (convert fc cog) (convert fc P) WT CL Z NZ) as D2.
  pose proof (pitch_column rho g (rho * g * volume (wet ++ caps ls)) wet ls (convert fc cog) (convert fc P) WT CL Z NZ) as D3.
  unfold after, stiff, HP_make_at; cbn [h_rho h_g h_cog h_rt h_rl h_K h_red m00 m01 m02 m10 m11 m12 m20 m21 m22]. fold ls wet. rewrite !swap_convert.
  rewrite !wp_x, !wp_y, !wp_x2, !wp_y2, !wp_xy. change (waterplane (fun _ => 1) ls) with (waterplane (mono POLY_1) ls).
  assert (EQV : forall (f : R -> vec) a b, derive3 f 0 a -> a = b -> derive3 f 0 b) by (intros; subst; assumption).
  split; [|split]; (eapply EQV; [eassumption|]); apply vec_eq; cbn [vx vy vz]; try ring; field; exact NZ.
Qed.
(** Calling ComputeProperties again on the same object adds the radii and the water plane area again:
    after n + 1 calls the metacentric radii and the area are n + 1 times too large, and the roll and
    pitch stiffness follow; the other coefficients keep their values. *)
Theorem C110_recompute_refuted : forall n u m ls K0 rho g cog P fc, floating u m ls -> rho * g <> 0 ->
  let s := soup_of (verts m) (faces m) ++ caps ls in let x0 := vx (convert fc P) in let y0 := vy (convert fc P) in let W f := waterplane f ls in
  let z := vz (centroid s) - vz (convert fc cog) in let k := INR (S n) in
  exists h, ComputeTimes (S n) u (HP_make_at K0 rho g m cog P fc) = Some h /\
    h_wparea h = k * W (fun _ => 1) /\ h_rt h = k * (W (fun p => (vy p - y0) * (vy p - y0)) / volume s) /\ h_rl h = k * (W (fun p => (vx p - x0) * (vx p - x0)) / volume s) /\
    GetK44 (h_K h) = rho * g * (k * W (fun p => (vy p - y0) * (vy p - y0)) + volume s * z) /\ GetK55 (h_K h) = rho * g * (k * W (fun p => (vx p - x0) * (vx p - x0)) + volume s * z) /\
    GetK33 (h_K h) = rho * g * W (fun _ => 1) /\ GetK34 (h_K h) = rho * g * W (fun p => vy p - y0) /\ GetK35 (h_K h) = - (rho * g * W (fun p => vx p - x0)) /\
    GetK45 (h_K h) = - (rho * g * W (fun p => (vx p - x0) * (vy p - y0))).
Proof.
  intros n u m ls K0 rho g cog P fc F RG. cbv zeta. destruct (floating_ready u m ls (HP_make_at K0 rho g m cog P fc) F eq_refl RG) as (p0 & ps & -> & O & S1 & WL & NZ & RD).
  destruct (ready_times u p0 ps _ _ O S1 WL NZ n _ RD) as (h & E & _ & _ & _ & _ & _ & B1 & B2 & B3 & B4). cbv zeta in *. exists h. split; [exact E|].
  unfold HP_make_at in B1, B2, B3, B4; cbn [h_rho h_g h_cog h_red h_wparea h_rt h_rl] in B1, B2, B3, B4. rewrite !swap_convert in *. rewrite B4, B1, B2, B3. unfold stiff, GetK33, GetK34, GetK35, GetK44, GetK45, GetK55. cbn [m00 m01 m02 m11 m12 m22].
  repeat split; try ring; field; exact NZ.
Qed.
(** Non-vacuity: the open box floating at the draught 1 *)
Lemma hull_floating u : floating u (MLoad empty_mesh hull_verts hull_faces) [hull_rim].
Proof.
  destruct hull_ok as (O & B & I & G). destruct (G u) as (p & m0 & E & Ev). destruct hull_rim_ok as (H1 & H2 & H3).
  exists [MOLoad hull_verts hull_faces], [p], m0. rewrite load_empty in *. cbn [UpdateAllProperties faces verts].
  split; [reflexivity|]. split; [exact O|]. split; [exact B|]. split; [exact E|]. split; [cbn [map]; rewrite as_listed, Ev; reflexivity|]. split; [discriminate|]. split.
  - constructor; [|constructor]. split; [|rewrite H3; cbn; lra]. intros v Hv. cbn in Hv. repeat (destruct Hv as [<-|Hv]; [reflexivity|]). destruct Hv.
  - rewrite hull_volume. lra.
Qed.
Lemma hull_waterplane t : let W := waterplane (mono t) [hull_rim] in t = POLY_1 /\ W = 4 \/ t = POLY_X2 /\ W = 4/3 \/ t = POLY_Y2 /\ W = 4/3 \/ t = POLY_X /\ W = 0 \/ t = POLY_Y /\ W = 0 \/ t = POLY_XY /\ W = 0 \/ (t <> POLY_1 /\ t <> POLY_X2 /\ t <> POLY_Y2 /\ t <> POLY_X /\ t <> POLY_Y /\ t <> POLY_XY).
Proof.
  cbv zeta. unfold waterplane, hull_rim, sum. cbn [map fold_right fan]. rewrite !over_mono. unfold omono, moment3, cross2, origin.
  destruct t; cbn [fac1 fac2 fac3 vx vy vz]; try (repeat right; repeat split; discriminate).
  - left. split; [reflexivity|field].
  - right; right; right; left. split; [reflexivity|field].
  - right; right; right; right; left. split; [reflexivity|field].
  - right; right; right; right; right; left. split; [reflexivity|field].
  - right; left. split; [reflexivity|field].
  - right; right; left. split; [reflexivity|field].
Qed.
Example C36_not_vacuous : forall u, exists h, ComputeProperties u (HP_make_at (M 0 0 0 0 0 0 0 0 0) 1025 10 (MLoad empty_mesh hull_verts hull_faces) (V 0 0 (-1)) origin NED) = Some h /\
  h_volume h = 4 /\ GetK33 (h_K h) = 41000 /\ h_rt h = 1/3.
Proof.
  intros u. destruct (C36_hydrostatic_properties u _ _ (M 0 0 0 0 0 0 0 0 0) 1025 10 (V 0 0 (-1)) origin NED (hull_floating u)) as (h & E & A1 & A2 & A3 & A4 & A5 & A6 & A7 & A8 & A9 & A10 & A11 & _); [lra|]. cbv zeta in *.
  assert (Ev : verts (MLoad empty_mesh hull_verts hull_faces) = hull_verts) by (rewrite load_empty; reflexivity). assert (Ef : faces (MLoad empty_mesh hull_verts hull_faces) = hull_faces) by (rewrite load_empty; reflexivity).
  rewrite Ev, Ef, hull_volume in *. exists h. split; [exact E|]. split; [exact A1|].
  destruct (hull_waterplane POLY_1) as [[_ W]|[[K _]|[[K _]|[[K _]|[[K _]|[[K _]|(K & _)]]]]]]; try discriminate K; [|exfalso; apply K; reflexivity].
  destruct (hull_waterplane POLY_Y2) as [[K _]|[[K _]|[[_ W2]|[[K _]|[[K _]|[[K _]|(_ & _ & K & _)]]]]]]; try discriminate K; [|exfalso; apply K; reflexivity].
  destruct (hull_waterplane POLY_Y) as [[K _]|[[K _]|[[K _]|[[K _]|[[_ W3]|[[K _]|(_ & _ & _ & _ & K & _)]]]]]]; try discriminate K; [|exfalso; apply K; reflexivity].
  change (waterplane (fun _ => 1) [hull_rim]) with (waterplane (mono POLY_1) [hull_rim]) in A11. rewrite wp_y2, W, W2, W3 in A7. rewrite W in A11. split; [lra|]. rewrite A7. unfold origin, convert; cbn. field.
Qed.

(** A hull with a moonpool: outer rim anticlockwise, inner rim clockwise *)
Definition pool_verts : list vec := [V (-2) (-2) 0; V 2 (-2) 0; V 2 2 0; V (-2) 2 0; V (-2) (-2) (-1); V 2 (-2) (-1); V 2 2 (-1); V (-2) 2 (-1);
  V (-1) (-1) 0; V 1 (-1) 0; V 1 1 0; V (-1) 1 0; V (-1) (-1) (-1); V 1 (-1) (-1); V 1 1 (-1); V (-1) 1 (-1)].
Definition pool_faces : list tri := [ (0, 4, 1); (1, 4, 5); (1, 5, 2); (2, 5, 6); (2, 6, 3); (3, 6, 7); (3, 7, 0); (0, 7, 4);
  (8, 9, 12); (9, 13, 12); (9, 10, 13); (10, 14, 13); (10, 11, 14); (11, 15, 14); (11, 8, 15); (8, 12, 15);
  (4, 13, 5); (4, 12, 13); (5, 14, 6); (5, 13, 14); (6, 15, 7); (6, 14, 15); (7, 12, 4); (7, 15, 12) ]%nat.
Definition pool_out : list vec := [V (-2) (-2) 0; V 2 (-2) 0; V 2 2 0; V (-2) 2 0; V (-2) (-2) 0].
Definition pool_in : list vec := [V 1 (-1) 0; V (-1) (-1) 0; V (-1) 1 0; V 1 1 0; V 1 (-1) 0].
Lemma pool_rims : closed_list pool_out /\ closed_list pool_in /\ coplanar pool_out /\ coplanar pool_in /\ vector_area pool_out = V 0 0 16 /\ vector_area pool_in = V 0 0 (-4) /\
  (forall l v, In l [pool_out; pool_in] -> In v l -> vz v = 0).
Proof.
  assert (Z : forall l v, In l [pool_out; pool_in] -> In v l -> vz v = 0).
  { intros l v [<-|[<-|[]]] Hv; cbn in Hv; repeat (destruct Hv as [<-|Hv]; [reflexivity|]); destruct Hv. }
  assert (CO : forall l, In l [pool_out; pool_in] -> coplanar l). { intros l Hl. exists (V 0 0 1), 0. split; [intros H; injection H; lra|]. intros p Hp. unfold dot3; cbn [vx vy vz]. rewrite (Z l p Hl Hp). ring. }
  split; [reflexivity|]. split; [reflexivity|]. split; [apply CO; cbn; auto|]. split; [apply CO; cbn; auto|]. split; [|split; [|exact Z]]; cbn [vector_area pool_out pool_in]; apply vec_eq; geo; field.
Qed.
(** For this hull, and the load of the water on its wetted surface, the derivative in heave is
    -12 rho g, but the coefficient computed is 20 rho g: the pool is added to the waterplane. *)
Theorem C110_moonpool_refuted : forall u rho g, rho * g <> 0 -> let m := MLoad empty_mesh pool_verts pool_faces in
  consistent (faces m) /\ simple_borders (faces m) /\ volume (soup_of (verts m) (faces m) ++ caps [pool_out; pool_in]) = 12 /\
  (forall c P w, is_derive (fun t => vx (load rho g (soup_of (verts m) (faces m)) w c P (heave t))) 0 (- (rho * g * 12))) /\
  exists h, ComputeProperties u (HP_make (M 0 0 0 0 0 0 0 0 0) rho g m origin NWU) = Some h /\ h_volume h = 12 /\ GetK33 (h_K h) = rho * g * 20.
Proof.
  intros u rho g RG. cbv zeta. rewrite load_empty. set (m := UpdateAllProperties _). pose proof (update_coherent u (Mesh pool_verts pool_faces nil None)) as C. fold m in C.
  change (verts m) with pool_verts. change (faces m) with pool_faces. destruct pool_rims as (L1 & L2 & P1 & P2 & A1 & A2 & Z).
  assert (O : consistent pool_faces) by (apply nodupb_ok; vm_compute; reflexivity).
  assert (B : simple_borders pool_faces).
  { intros a b c H1 H2. apply border_in in H1. apply border_in in H2. vm_compute in H1, H2.
    repeat (destruct H1 as [H1|H1]; [injection H1 as <- <-; repeat (destruct H2 as [H2|H2]; [try discriminate; injection H2 as H2; congruence|]); destruct H2|]). destruct H1. }
  assert (VO : volume (soup_of pool_verts pool_faces ++ caps [pool_out; pool_in]) = 12) by (rewrite C32_signed_tetrahedra; cbn; unfold sum, det3, dot3, cross3; cbn; field).
  destruct (polygon_total (u pool_out) pool_out L1 P1) as (p & Ep); [rewrite A1; intros H; injection H; lra|].
  destruct (polygon_total (u pool_in) pool_in L2 P2) as (q & Eq); [rewrite A2; intros H; injection H; lra|].
  assert (E : CalcBoundaryPolygonSet u m = Some [p; q]).
  { unfold CalcBoundaryPolygonSet. change (faces m) with pool_faces. change (verts m) with pool_verts.
    assert (L : boundary_loops (length (boundary_halfedges pool_faces)) (boundary_halfedges pool_faces) nil = Some [[(0, 1); (1, 2); (2, 3); (3, 0)]; [(9, 8); (8, 11); (11, 10); (10, 9)]]%nat) by (vm_compute; reflexivity).
    rewrite L. cbn [map make_all]. change (loop_points pool_verts [(0, 1); (1, 2); (2, 3); (3, 0)]%nat) with pool_out. change (loop_points pool_verts [(9, 8); (8, 11); (11, 10); (10, 9)]%nat) with pool_in. rewrite Ep, Eq. reflexivity. }
  pose proof (make_verts _ _ _ Ep) as Vp. pose proof (make_verts _ _ _ Eq) as Vq.
  assert (CO : List.Forall coplanar (map pg_verts [p; q])) by (cbn [map]; rewrite Vp, Vq; repeat constructor; assumption).
  destruct (capped_facts u m [p; q] C O B E CO) as (WT & _). cbn [map] in WT. rewrite Vp, Vq in WT. change (mesh_soup m) with (soup_of pool_verts pool_faces) in WT.
  split; [exact O|]. split; [exact B|]. split; [exact VO|]. split.
  - intros c P w. destruct (heave_column rho g w (soup_of pool_verts pool_faces) [pool_out; pool_in] c P WT) as (D & _); [repeat constructor; assumption|exact Z|rewrite VO; lra|]. cbv beta in D. cbn [vx] in D.
    assert (W1 : waterplane (mono POLY_1) [pool_out; pool_in] = 12).
    { unfold waterplane, pool_out, pool_in, sum. cbn [map fold_right fan]. rewrite !over_mono. unfold omono, moment3, cross2, origin. cbn [fac1 fac2 fac3 vx vy vz]. field. }
    rewrite W1 in D. exact D.
  - unfold ComputeProperties, CalcGeometricProperties. cbn [HP_make h_mesh]. rewrite get_polys, E by exact C.
    unfold CalcHydrostaticProperties. cbn [h_mesh h_rho h_g h_volume h_wparea h_red h_cog h_rt h_rl h_draught h_length h_breadth h_lwl h_K].
    set (m1 := filled m [p; q]). assert (C1 : coherent u m1) by (apply filled_coherent; [apply C|exact E]). assert (E1 : CalcBoundaryPolygonSet u m1 = Some [p; q]) by exact E. assert (F1 : filled m1 [p; q] = m1) by reflexivity.
    rewrite (capped_volume u m1 _ C1 O B E1 CO), F1. rewrite (capped_cog u m1 _ C1 O B E1 CO).
    2:{ cbn [map]. rewrite Vp, Vq. change (mesh_soup m1) with (soup_of pool_verts pool_faces). rewrite VO. lra. }
    rewrite F1. rewrite (capped_area u m1 _ C1 O B E1 CO), F1. rewrite get_polys, E1, F1 by exact C1. cbn [map]. rewrite Vp, Vq. change (mesh_soup m1) with (soup_of pool_verts pool_faces). rewrite VO.
    eexists. split; [reflexivity|]. cbn [h_volume]. split; [reflexivity|]. unfold GetK33, SetNonDiagonal, SetDiagonal, SetK33, SetK44, SetK55, SetK34, SetK35, SetK45. cbn [h_K m00 m01 m02 m10 m11 m12 m20 m21 m22].
    destruct (level_polygon (u pool_out) pool_out p 1 L1) as (_ & _ & J1); [intros v; apply Z; cbn; auto|lra|rewrite A1; cbn; lra|exact Ep|].
    destruct (level_polygon (u pool_in) pool_in q (-1) L2) as (_ & _ & J2); [intros v; apply Z; cbn; auto|lra|rewrite A2; cbn; lra|exact Eq|].
    unfold Pg_GetArea in J1, J2. unfold poly_total. cbn [fold_left]. rewrite J1, J2, A1, A2. cbn [vz HP_make h_rho h_g]. ring.
Qed.

(** ** C56 *)
(** The matrix of the equilibrium solver at a reduction point: the coefficients of C36 for the clipped
    mesh, with the centre of gravity G of the body in the world.  It is the matrix about P of the body
    when P is given in NWU and the body is above the origin of the world; see the next two theorems. *)
Theorem C56_matrix : forall rho g u clip e P fc ls, floating u (clip (GetFrame (e_body e))) ls -> rho * g <> 0 ->
  let m := clip (GetFrame (e_body e)) in let s := soup_of (verts m) (faces m) ++ caps ls in let G := convert fc (GetPointPositionInWorld (e_body e) (e_cog e) NWU) in
  let x0 := vx (convert fc P) in let y0 := vy (convert fc P) in let W f := waterplane f ls in
  exists K, EQ_GetHydrostaticMatrixAt rho g u clip e P fc = Some K /\ GetMatrix K = K /\
    GetK33 K = rho * g * W (fun _ => 1) /\ GetK34 K = rho * g * W (fun p => vy p - y0) /\ GetK35 K = - (rho * g * W (fun p => vx p - x0)) /\
    GetK45 K = - (rho * g * W (fun p => (vx p - x0) * (vy p - y0))) /\
    GetK44 K = rho * g * (W (fun p => (vy p - y0) * (vy p - y0)) + volume s * (vz (centroid s) - vz G)) /\
    GetK55 K = rho * g * (W (fun p => (vx p - x0) * (vx p - x0)) + volume s * (vz (centroid s) - vz G)).
Proof.
  intros rho g u clip e P fc ls F RG. cbv zeta. pose proof F as (_ & _ & _ & _ & _ & _ & _ & _ & _ & _ & NZ).
  destruct (C36_hydrostatic_properties u _ ls (M 0 0 0 0 0 0 0 0 0) rho g (GetPointPositionInWorld (e_body e) (e_cog e) NWU) P fc F RG) as (h & E & _ & _ & _ & _ & _ & _ & R1 & R2 & R3 & R4 & K33 & K34 & K35 & K44 & K45 & K55 & SY).
  cbv zeta in *. exists (h_K h). unfold EQ_GetHydrostaticMatrixAt. rewrite E. rewrite K44, K55, R3, R4, R1, R2. repeat (split; [reflexivity || assumption|]). split; field; exact NZ.
Qed.
(** The same point given in NED: the centre of gravity is turned over with it. *)
Theorem C146_ned_refuted : forall rho g u clip e P ls, floating u (clip (GetFrame (e_body e))) ls -> rho * g <> 0 ->
  let m := clip (GetFrame (e_body e)) in let G := GetPointPositionInWorld (e_body e) (e_cog e) NWU in
  exists K K', EQ_GetHydrostaticMatrixAt rho g u clip e P NWU = Some K /\ EQ_GetHydrostaticMatrixAt rho g u clip e (convert NED P) NED = Some K' /\
    GetK33 K' = GetK33 K /\ GetK34 K' = GetK34 K /\ GetK35 K' = GetK35 K /\ GetK45 K' = GetK45 K /\
    GetK44 K' - GetK44 K = 2 * (rho * g * volume (soup_of (verts m) (faces m) ++ caps ls) * vz G) /\
    GetK55 K' - GetK55 K = 2 * (rho * g * volume (soup_of (verts m) (faces m) ++ caps ls) * vz G).
Proof.
  intros rho g u clip e P ls F RG. cbv zeta. destruct (C56_matrix rho g u clip e P NWU ls F RG) as (K & E & _ & A1 & A2 & A3 & A4 & A5 & A6).
  destruct (C56_matrix rho g u clip e (convert NED P) NED ls F RG) as (K' & E' & _ & B1 & B2 & B3 & B4 & B5 & B6). cbv zeta in *. rewrite !convert_invol in *. cbn [convert] in A2, A3, A4, A5, A6.
  exists K, K'. split; [exact E|]. split; [exact E'|]. rewrite A1, A2, A3, A4, A5, A6, B1, B2, B3, B4, B5, B6. repeat (split; [reflexivity|]). unfold convert; cbn [vz]. split; ring.
Qed.
(** A body away from the origin of the world: the waterplane is taken near the origin but the
    reduction point is not.  The coefficients differ from those about P by the moments of the offset. *)
Theorem C146_offset_refuted : forall rho g u clip e P ls, floating u (clip (GetFrame (e_body e))) ls -> rho * g <> 0 ->
  let f := GetFrame (e_body e) in let W h := waterplane (fun p => h (in_world_axes f p)) ls in let A := W (fun _ => 1) in
  exists K, EQ_GetHydrostaticMatrixAt rho g u clip e P NWU = Some K /\
    GetK34 K = rho * g * W (fun p => vy p - vy P) - rho * g * A * vy (fpos f) /\
    GetK35 K = - (rho * g * W (fun p => vx p - vx P)) + rho * g * A * vx (fpos f).
Proof.
  intros rho g u clip e P ls F RG. cbv zeta. destruct (C56_matrix rho g u clip e P NWU ls F RG) as (K & E & _ & A1 & A2 & A3 & _). cbv zeta in *. cbn [convert] in *. exists K. split; [exact E|].
  rewrite A2, A3. set (f := GetFrame (e_body e)). rewrite !wp_x, !wp_y.
  rewrite (wp_ext (fun p => vy (in_world_axes f p) - vy P) (fun p => vy p - (vy P - vy (fpos f)))) by (intros; unfold in_world_axes, plus3; cbn; ring).
  rewrite (wp_ext (fun p => vx (in_world_axes f p) - vx P) (fun p => vx p - (vx P - vx (fpos f)))) by (intros; unfold in_world_axes, plus3; cbn; ring).
  rewrite wp_x, wp_y. change (waterplane (fun _ => 1) ls) with (waterplane (mono POLY_1) ls). split; ring.
Qed.

(** ** C57 *)
(** When the solver reports convergence, the weight and the buoyancy of the last clipped mesh balance
    within the tolerance (vertical force, and moments about the axes of the mesh frame).
    It is the equilibrium only for a body above the origin, see C123_offset_refuted. *)
Theorem C57_converged : forall fuel rho g u clip lu garbage e e', (forall f, exists ops, mesh_run u ops empty_mesh = Some (clip f)) ->
  SolveEquilibrium fuel rho g u clip lu garbage e = Ret true e' ->
  let m := clip (GetFrame (e_body e')) in let w := e_mass e * g in let bb := GetBoundingBox m in
  w <> 0 -> ymin bb < ymax bb -> xmin bb < xmax bb ->
  exists v B m1 m2, GetVolume u m = Some (v, m1) /\ MeshModel.GetCOG u m = Some (B, m2) /\ 1 / 10 ^ 6 < v /\
    let G := GetPointPositionInWorld (e_body e') (e_cog e) NWU in
    Rabs (rho * g * v - w) < e_tol e * Rabs w /\
    Rabs (rho * g * v * vy B - w * vy G) < e_tol e * (Rabs w * (ymax bb - ymin bb)) /\
    Rabs (rho * g * v * vx B - w * vx G) < e_tol e * (Rabs w * (xmax bb - xmin bb)).
Proof.
  intros fuel rho g u clip lu garbage e e' CL H. cbv zeta. intros W0 Y X. unfold SolveEquilibrium, SolveDisplacement in H.
  destruct (disp_loop fuel rho g u clip garbage e) as [b e1| |] eqn:ED; try discriminate. destruct (disp_settings _ _ _ _ _ _ _ _ _ ED) as [S1 _].
  destruct (equil_true _ _ _ _ _ _ _ _ _ H) as (S2 & v & m1 & hsp & EV & L & EH & BA). pose proof (settings_trans _ _ _ S1 S2) as (T1 & T2 & T3 & T4 & T5).
  destruct (CL (GetFrame (e_body e'))) as (ops & RUN). pose proof (run_coherent u ops _ _ (empty_coherent u) RUN) as C.
  destruct (volume_then u _ _ _ C EV) as (C1 & Ev & Ef & EG & EV1).
  destruct (compute_reads u (HP_make (M 0 0 0 0 0 0 0 0 0) rho g m1 (GetPointPositionInWorld (e_body e') (e_cog e') NWU) NWU) hsp C1 EH) as (_ & G & Br & Le & _). cbn [HP_make h_mesh] in G, Br, Le. rewrite EG in G. rewrite (same_bbox _ _ Ev) in Br, Le.
  destruct (MeshModel.GetCOG u (clip (GetFrame (e_body e')))) as [[B m2]|] eqn:EC; [|discriminate]. cbn [option_map fst] in G.
  assert (GB : h_buoyancy hsp = B) by congruence. exists v, B, m1, m2. split; [exact EV|]. split; [reflexivity|]. split; [exact L|].
  unfold balance in BA. rewrite T1, T2, T5, GB, Br, Le in BA. destruct BA as (B1 & B2 & B3).
  assert (N1 : e_mass e * g * (ymax (GetBoundingBox (clip (GetFrame (e_body e')))) - ymin (GetBoundingBox (clip (GetFrame (e_body e'))))) <> 0) by (apply Rmult_integral_contrapositive; split; [exact W0|lra]).
  assert (N2 : e_mass e * g * (xmax (GetBoundingBox (clip (GetFrame (e_body e')))) - xmin (GetBoundingBox (clip (GetFrame (e_body e'))))) <> 0) by (apply Rmult_integral_contrapositive; split; [exact W0|lra]).
  apply (scaled _ _ _ W0) in B1. apply (scaled _ _ _ N1) in B2. apply (scaled _ _ _ N2) in B3. rewrite Rabs_mult in B2, B3. rewrite (Rabs_pos_eq (ymax _ - ymin _)) in B2 by lra. rewrite (Rabs_pos_eq (xmax _ - xmin _)) in B3 by lra.
  split; [exact B1|]. split; [exact B2|]. rewrite <- Rabs_Ropp. replace (- (rho * g * v * vx B - e_mass e * g * vx (GetPointPositionInWorld (e_body e') (e_cog e) NWU))) with (- (rho * g * v) * vx B + e_mass e * g * vx (GetPointPositionInWorld (e_body e') (e_cog e) NWU)) by ring. exact B3.
Qed.
(** SolveDisplacement alone: convergence means that the weight is that of the displaced water. *)
Theorem C57_displacement : forall fuel rho g u clip garbage e e', SolveDisplacement fuel rho g u clip garbage e = Ret true e' -> e_mass e * g <> 0 ->
  exists v m1, GetVolume u (clip (GetFrame (e_body e'))) = Some (v, m1) /\ 1 / 10 ^ 6 < v /\ Rabs (rho * g * v - e_mass e * g) < e_tol e * Rabs (e_mass e * g).
Proof.
  intros fuel rho g u clip garbage e e' H W. destruct (disp_true _ _ _ _ _ _ _ _ H) as (v & m1 & A & B & C). exists v, m1. split; [exact A|]. split; [exact B|]. apply scaled; assumption.
Qed.
(** Both solvers end: as many turns as the iterations allowed suffice. *)
Theorem C57_terminates : forall fuel rho g u clip lu garbage e, (e_max e + 2 <= fuel)%nat ->
  SolveDisplacement fuel rho g u clip garbage e <> OutOfFuel /\ SolveEquilibrium fuel rho g u clip lu garbage e <> OutOfFuel.
Proof.
  intros fuel rho g u clip lu garbage e L. assert (D : disp_loop fuel rho g u clip garbage e <> OutOfFuel) by (apply disp_fuel; lia). split; [exact D|].
  unfold SolveEquilibrium, SolveDisplacement. destruct (disp_loop fuel rho g u clip garbage e) as [b e1| |] eqn:ED; [|discriminate|contradiction].
  destruct (disp_settings _ _ _ _ _ _ _ _ _ ED) as [(_ & _ & _ & S4 & _) S2]. apply equil_fuel; lia.
Qed.
(** The body is only moved up or down and turned: its origin stays on the same vertical, and after
    the first move it moves by at most the relaxation per iteration. *)
Theorem C57_moves : forall fuel rho g u clip lu garbage e b e', reachable (e_body e) -> 0 <= vx (e_relax e) -> SolveEquilibrium fuel rho g u clip lu garbage e = Ret b e' ->
  exists dz, GetPosition (GetFrame (e_body e')) NWU = plus3 (GetPosition (GetFrame (e_body e)) NWU) (V 0 0 dz) /\ Rabs (dz - garbage) <= INR (e_iter e' - e_iter e) * vx (e_relax e).
Proof.
  intros fuel rho g u clip lu garbage e b e' R R0 H. apply reach_canonical in R. unfold SolveEquilibrium, SolveDisplacement in H.
  destruct (disp_loop fuel rho g u clip garbage e) as [b1 e1| |] eqn:ED; try discriminate. destruct (disp_settings _ _ _ _ _ _ _ _ _ ED) as [S1 I1].
  destruct (disp_moves _ _ _ _ _ _ _ _ _ R0 R ED) as (C1 & d1 & F1 & B1). destruct S1 as (_ & _ & S3 & _).
  destruct (equil_position _ _ _ _ _ _ _ _ _ _ C1 ltac:(rewrite S3; exact R0) H) as (C2 & I2 & d2 & F2 & B2). rewrite S3 in B2. cbn [vzero vx] in B2.
  exists (d1 + d2). unfold GetPosition. rewrite !swap_convert. cbn [convert]. rewrite F2, F1. cbn [fpos]. split.
  - generalize (fpos (GetFrame (e_body e))). intros []; apply vec_eq; cbn; ring.
  - replace (INR (e_iter e' - e_iter e)) with (INR (e_iter e1 - e_iter e) + INR (e_iter e' - e_iter e1)) by (rewrite <- plus_INR; f_equal; lia).
    replace (d1 + d2 - garbage) with ((d1 - garbage) + (d2 - 0)) by ring. eapply Rle_trans; [apply Rabs_triang|]. lra.
Qed.
(** The centre of buoyancy is read in axes below the body but the centre of gravity in the world: away
    from the origin of the world the position accepted is not an equilibrium.  With the centre of
    buoyancy in the world, the moment about the axis y is at least weight times distance, less the tolerance. *)
Theorem C123_offset_refuted : forall fuel rho g u clip lu garbage e e', (forall f, exists ops, mesh_run u ops empty_mesh = Some (clip f)) -> reachable (e_body e) -> 0 <= vx (e_relax e) ->
  SolveEquilibrium fuel rho g u clip lu garbage e = Ret true e' ->
  let f := GetFrame (e_body e') in let m := clip f in let w := e_mass e * g in let bb := GetBoundingBox m in
  w <> 0 -> 0 <= rho * g -> ymin bb < ymax bb -> xmin bb < xmax bb ->
  exists v B m1 m2, GetVolume u m = Some (v, m1) /\ MeshModel.GetCOG u m = Some (B, m2) /\ let G := GetPointPositionInWorld (e_body e') (e_cog e) NWU in
    rho * g * v * Rabs (vx (GetPosition (GetFrame (e_body e)) NWU)) - e_tol e * (Rabs w * (xmax bb - xmin bb)) <= Rabs (vy (plus3 (moment_of (in_world_axes f B) (V 0 0 (rho * g * v))) (moment_of G (V 0 0 (- w))))).
Proof.
  intros fuel rho g u clip lu garbage e e' CL R R0 H. cbv zeta. intros W RG Y X.
  destruct (C57_converged fuel rho g u clip lu garbage e e' CL H W Y X) as (v & B & m1 & m2 & E1 & E2 & L & _ & _ & B3). cbv zeta in B3.
  destruct (C57_moves fuel rho g u clip lu garbage e true e' R R0 H) as (dz & P & _).
  exists v, B, m1, m2. split; [exact E1|]. split; [exact E2|]. unfold GetPosition in P |- *. rewrite !swap_convert in P. rewrite swap_convert. cbn [convert] in *.
  set (f := GetFrame (e_body e')) in *. set (G := GetPointPositionInWorld (e_body e') (e_cog e) NWU) in *. set (bb := GetBoundingBox (clip f)) in *.
  assert (PX : vx (fpos f) = vx (fpos (GetFrame (e_body e)))) by (rewrite P; cbn; ring). rewrite <- PX. set (x := vx (fpos f)).
  unfold moment_of, in_world_axes, plus3, cross3. cbn [vx vy vz]. fold x.
  assert (PV : 0 <= rho * g * v) by (apply Rmult_le_pos; lra).
  replace (rho * g * v * Rabs x) with (Rabs (rho * g * v * x)) by (rewrite Rabs_mult, (Rabs_pos_eq (rho * g * v)) by exact PV; reflexivity).
  set (r := rho * g * v * vx B - e_mass e * g * vx G) in *.
  replace ((vz B + 0) * 0 - (vx B + x) * (rho * g * v) + (vz G * 0 - vx G * - (e_mass e * g))) with (- (rho * g * v * x + r)) by (unfold r; ring). rewrite Rabs_Ropp.
  pose proof (Rabs_triang (rho * g * v * x + r) (- r)). replace (rho * g * v * x + r + - r) with (rho * g * v * x) in H0 by ring. rewrite Rabs_Ropp in H0. lra.
Qed.
(** The first move is the contents of an uninitialised variable: from the same state, a value that
    takes the body out of the water makes the solver fail, zero makes it succeed at once. *)
Theorem C123_uninitialised_refuted : forall rho g u clip e a v m v' m', reachable (e_body e) -> e_mass e * g <> 0 -> 0 < e_tol e -> (e_iter e <= e_max e)%nat ->
  let f := GetFrame (e_body e) in GetVolume u (clip f) = Some (v, m) -> 1 / 10 ^ 6 < v -> rho * g * v = e_mass e * g ->
  GetVolume u (clip (Fr (plus3 (fpos f) (V 0 0 a)) (frot f))) = Some (v', m') -> v' <= 1 / 10 ^ 6 ->
  (exists e', SolveDisplacement 1 rho g u clip 0 e = Ret true e') /\ (exists e', SolveDisplacement 1 rho g u clip a e = Ret false e').
Proof.
  intros rho g u clip e a v m v' m' C W T I. apply reach_canonical in C. cbv zeta. intros E1 V1 Q E2 V2. unfold SolveDisplacement. split.
  - rewrite disp_unfold. cbv zeta. cbn [with_body e_body]. destruct (canonical_translate (e_body e) (V 0 0 0) C) as [_ F]. rewrite F.
    replace (Fr (plus3 (fpos (GetFrame (e_body e))) (V 0 0 0)) (frot (GetFrame (e_body e)))) with (GetFrame (e_body e)) by (destruct (GetFrame (e_body e)) as [[] ?]; cbn; f_equal; apply vec_eq; cbn; ring).
    rewrite E1. destruct (Rle_dec v _); [lra|]. destruct (Nat.ltb_spec (e_max e) (e_iter e)); [lia|]. rewrite Q. replace ((e_mass e * g - e_mass e * g) / (e_mass e * g)) with 0 by (field; split; [intros K|intros K]; apply W; rewrite K; ring). rewrite Rabs_R0.
    destruct (Rlt_dec 0 (e_tol e)); [|lra]. eexists. reflexivity.
  - rewrite disp_unfold. cbv zeta. cbn [with_body e_body]. destruct (canonical_translate (e_body e) (V 0 0 a) C) as [_ F]. rewrite F, E2. destruct (Rle_dec v' _); [|lra]. eexists. reflexivity.
Qed.
(** A body wholly under water, in neutral balance: the clipped mesh is closed, the solver indexes an
    empty list of polygons. *)
Theorem C123_submerged_refuted : forall fuel rho g u clip lu e v m, reachable (e_body e) -> e_mass e * g <> 0 -> 0 < e_tol e -> (e_iter e <= e_max e)%nat -> (0 < fuel)%nat ->
  let f := GetFrame (e_body e) in (exists ops, mesh_run u ops empty_mesh = Some (clip f)) -> IsWatertight (clip f) = true ->
  GetVolume u (clip f) = Some (v, m) -> 1 / 10 ^ 6 < v -> rho * g * v = e_mass e * g ->
  SolveEquilibrium fuel rho g u clip lu 0 e = Stuck.
Proof.
  intros fuel rho g u clip lu e v m C W T I FU. apply reach_canonical in C. cbv zeta. intros (ops & RUN) WT E V1 Q. destruct fuel as [|fuel]; [lia|].
  destruct (canonical_translate (e_body e) (V 0 0 0) C) as [C1 F1].
  assert (F0 : GetFrame (BTranslateInWorld (e_body e) (V 0 0 0) NWU) = GetFrame (e_body e)) by (rewrite F1; destruct (GetFrame (e_body e)) as [[] ?]; cbn; f_equal; apply vec_eq; cbn; ring).
  unfold SolveEquilibrium, SolveDisplacement. rewrite disp_unfold. cbv zeta. cbn [with_body e_body]. rewrite F0.
  rewrite E. destruct (Rle_dec v _); [lra|]. destruct (Nat.ltb_spec (e_max e) (e_iter e)); [lia|]. rewrite Q. replace ((e_mass e * g - e_mass e * g) / (e_mass e * g)) with 0 by (field; split; [intros K|intros K]; apply W; rewrite K; ring). rewrite Rabs_R0.
  destruct (Rlt_dec 0 (e_tol e)); [|lra].
  match goal with |- ?r = Stuck => pose proof (equil_cases rho g u clip lu fuel vzero _ r eq_refl) as X end. cbv zeta in X. unfold eq_body in X. cbn [with_body e_body vzero vx vy vz e_cog] in X. rewrite (frame_still _ C1), F0, E in X.
  destruct (Rle_dec v _); [lra|]. pose proof (run_coherent u ops _ _ (empty_coherent u) RUN) as CO. destruct (volume_then u _ _ _ CO E) as (C2 & Ev & Ef & _).
  assert (WT2 : IsWatertight m = true) by (unfold IsWatertight, HasBoundaries in *; rewrite Ef; exact WT).
  unfold ComputeProperties, CalcGeometricProperties in X. cbn [HP_make h_mesh] in X. rewrite get_polys, (closed_calc u m WT2) in X by exact C2. exact X.
Qed.
(** The iterations of all calls are counted together: once the number allowed is exceeded no later
    call can report convergence, wherever the body is put. *)
Theorem C123_exhausted_refuted : forall fuel rho g u clip lu garbage e e', (e_max e < e_iter e)%nat -> SolveEquilibrium fuel rho g u clip lu garbage e <> Ret true e'.
Proof.
  intros fuel rho g u clip lu garbage e e' L H. unfold SolveEquilibrium, SolveDisplacement in H. destruct (disp_loop fuel rho g u clip garbage e) as [b e1| |] eqn:ED; try discriminate.
  destruct (disp_settings _ _ _ _ _ _ _ _ _ ED) as [(_ & _ & _ & S4 & _) S2]. destruct fuel as [|fuel]; [discriminate|]. apply equil_cases in H. cbv zeta in H.
  destruct (GetVolume u _) as [[v m1]|]; [|discriminate]. destruct (Rle_dec v _); [discriminate|]. destruct (ComputeProperties u _) as [hsp|]; [|discriminate].
  destruct H as [(_ & H)|[(K & _)|(K & _)]]; [discriminate|lia|lia].
Qed.
(** The correction is computed about the world axes and applied about the body axes: with the
    heading pi, asking for the roll a turns the body by the roll -a. *)
Theorem C123_heading_refuted : forall b a, reachable b -> frot (GetFrame b) = Rot_SetCardan_RADIANS 0 0 PI NWU ->
  forall p, qrotate (frot (GetFrame (BRotate b (Rot_SetCardan_RADIANS a 0 0 NWU)))) p = mv (Rx (- a)) (qrotate (frot (GetFrame b)) p).
Proof.
  intros b a C E p. apply reach_canonical in C. destruct (canonical_rotate b (Rot_SetCardan_RADIANS a 0 0 NWU) C) as [_ F]. rewrite F. cbn [frot]. rewrite E.
  assert (U : forall x y z, unitq (Rot_SetCardan_RADIANS x y z NWU)) by (intros; unfold Rot_SetCardan_RADIANS, IsNED; apply unitq_cardan).
  rewrite qrotate_mul by apply U. rewrite <- !qrotate_mat. unfold Rot_SetCardan_RADIANS, IsNED. rewrite !cardan_matrix, !mv_mm.
  assert (Z : forall v, mv (Rz 0) v = v /\ mv (Ry 0) v = v /\ mv (Rx 0) v = v) by (intros [x y z]; unfold mv, Rx, Ry, Rz, dot3; cbn [m00 m01 m02 m10 m11 m12 m20 m21 m22 vx vy vz]; rewrite sin_0, cos_0; repeat split; apply vec_eq; cbn [vx vy vz]; ring).
  rewrite !(fun v => proj1 (Z v)), !(fun v => proj1 (proj2 (Z v))), !(fun v => proj2 (proj2 (Z v))).
  destruct p as [x y z]. unfold mv, Rx, Rz, dot3; cbn [m00 m01 m02 m10 m11 m12 m20 m21 m22 vx vy vz]. rewrite sin_PI, cos_PI, sin_neg, cos_neg. apply vec_eq; cbn [vx vy vz]; ring.
Qed.
(** A floating body in balance is recognised at once and left where it is (when the uninitialised
    variable happens to hold zero). *)
Lemma unscaled r k t : k <> 0 -> Rabs r < t * Rabs k -> Rabs (r / k) < t.
Proof.
  intros K H. assert (P : 0 < Rabs k) by (apply Rabs_pos_lt; exact K). unfold Rdiv. rewrite Rabs_mult, Rabs_inv. apply (Rmult_lt_reg_r (Rabs k)); [exact P|]. rewrite Rmult_assoc, Rinv_l by lra. lra.
Qed.
Lemma world_pos b b' c : canonical b -> canonical b' -> GetFrame b' = GetFrame b -> GetPointPositionInWorld b' c NWU = GetPointPositionInWorld b c NWU.
Proof.
  intros (F & v & d & c0 & Ns & ->) (F' & v' & d' & c0' & Ns' & ->). rewrite !frame_can, !world_can. intros ->. reflexivity.
Qed.
Lemma run_app u a : forall b m, mesh_run u (a ++ b) m = match mesh_run u a m with Some m' => mesh_run u b m' | None => None end.
Proof. induction a as [|o a IH]; intros b m; cbn [app mesh_run]; [reflexivity|]. destruct (mesh_step u o m); [apply IH|reflexivity]. Qed.
Theorem C57_at_equilibrium : forall fuel rho g u clip lu e ls, reachable (e_body e) -> (e_iter e <= e_max e)%nat -> (0 < fuel)%nat -> rho * g <> 0 ->
  let f := GetFrame (e_body e) in let m := clip f in let s := soup_of (verts m) (faces m) ++ caps ls in let w := e_mass e * g in let bb := GetBoundingBox m in
  let B := centroid s in let G := GetPointPositionInWorld (e_body e) (e_cog e) NWU in
  floating u m ls -> 1 / 10 ^ 6 < volume s -> w <> 0 -> ymin bb < ymax bb -> xmin bb < xmax bb ->
  Rabs (rho * g * volume s - w) < e_tol e * Rabs w ->
  Rabs (rho * g * volume s * vy B - w * vy G) < e_tol e * (Rabs w * (ymax bb - ymin bb)) ->
  Rabs (rho * g * volume s * vx B - w * vx G) < e_tol e * (Rabs w * (xmax bb - xmin bb)) ->
  exists e', SolveEquilibrium fuel rho g u clip lu 0 e = Ret true e' /\ GetFrame (e_body e') = f.
Proof.
  intros fuel rho g u clip lu e ls C I FU RG. apply reach_canonical in C. cbv zeta. intros FL V1 W Y X H1 H2 H3. destruct fuel as [|fuel]; [lia|].
  destruct (canonical_translate (e_body e) (V 0 0 0) C) as [C1 F1].
  assert (F0 : GetFrame (BTranslateInWorld (e_body e) (V 0 0 0) NWU) = GetFrame (e_body e)) by (rewrite F1; destruct (GetFrame (e_body e)) as [[] ?]; cbn; f_equal; apply vec_eq; cbn; ring).
  set (m := clip (GetFrame (e_body e))) in *. pose proof FL as (ops & ps' & m0' & RUN & OO & SS & GP & Els & _). pose proof (run_coherent u ops _ _ (empty_coherent u) RUN) as CO.
  destruct (C36_hydrostatic_properties u m ls (M 0 0 0 0 0 0 0 0 0) rho g (GetPointPositionInWorld (e_body e) (e_cog e) NWU) origin NWU FL RG) as (h0 & E0 & A1 & _).
  destruct (compute_reads u (HP_make_at (M 0 0 0 0 0 0 0 0 0) rho g m (GetPointPositionInWorld (e_body e) (e_cog e) NWU) origin NWU) h0 CO E0) as (R1 & _). cbn [HP_make_at h_mesh] in R1. cbv zeta in A1. rewrite A1 in R1.
  set (s := soup_of (verts m) (faces m) ++ caps ls) in *.
  destruct (GetVolume u m) as [[v m1]|] eqn:EV; [|discriminate]. cbn [option_map fst] in R1. assert (v = volume s) by congruence. subst v. clear h0 E0 A1 R1.
  destruct (volume_then u _ _ _ CO EV) as (C2 & Ev & Ef & _).
  assert (FL1 : floating u m1 ls).
  { exists (ops ++ [MOGetVolume]). unfold floating in FL. destruct FL as (_ & _ & _ & _ & _ & _ & _ & _ & N & WL & NZ). rewrite get_polys in GP by exact CO.
    assert (EM : CalcBoundaryPolygonSet u m1 = CalcBoundaryPolygonSet u m) by (rewrite (volume_value u m CO) in EV; destruct (CalcBoundaryPolygonSet u m) as [qs|] eqn:EQ; [|discriminate]; injection EV as _ <-; exact EQ).
    destruct (CalcBoundaryPolygonSet u m) as [qs|] eqn:EQ; [|discriminate]. injection GP as -> _. exists ps', (filled m1 ps'). rewrite Ev, Ef.
    split. { rewrite run_app, RUN. cbn [mesh_run mesh_step]. rewrite EV. reflexivity. }
    rewrite get_polys, EM by exact C2. auto 10. }
  destruct (C36_hydrostatic_properties u m1 ls (M 0 0 0 0 0 0 0 0 0) rho g (GetPointPositionInWorld (e_body e) (e_cog e) NWU) origin NWU FL1 RG) as (h & E & A1 & A2 & _). cbv zeta in A1, A2. rewrite Ev, Ef in A1, A2. fold s in A1, A2.
  destruct (compute_reads u (HP_make_at (M 0 0 0 0 0 0 0 0 0) rho g m1 (GetPointPositionInWorld (e_body e) (e_cog e) NWU) origin NWU) h C2 E) as (_ & _ & BR & LE & _). cbn [HP_make_at h_mesh] in BR, LE. rewrite (same_bbox _ _ Ev) in BR, LE.
  assert (N1 : e_mass e * g * (ymax (GetBoundingBox m) - ymin (GetBoundingBox m)) <> 0) by (apply Rmult_integral_contrapositive; split; [exact W|lra]).
  assert (N2 : e_mass e * g * (xmax (GetBoundingBox m) - xmin (GetBoundingBox m)) <> 0) by (apply Rmult_integral_contrapositive; split; [exact W|lra]).
  unfold SolveEquilibrium, SolveDisplacement. rewrite disp_unfold. cbv zeta. cbn [with_body e_body]. rewrite F0. fold m.
  rewrite EV. destruct (Rle_dec (volume s) _); [lra|]. destruct (Nat.ltb_spec (e_max e) (e_iter e)); [lia|].
  destruct (Rlt_dec _ _) as [_|K]; [|exfalso; apply K, unscaled; assumption].
  match goal with |- exists e', ?r = Ret true e' /\ _ => pose proof (equil_cases rho g u clip lu fuel vzero _ r eq_refl) as Z end. cbv zeta in Z. unfold eq_body in Z. cbn [with_body e_body vzero vx vy vz e_cog e_max e_iter] in Z.
  pose proof (frame_still _ C1) as FS. rewrite FS, F0 in Z. fold m in Z. rewrite EV in Z.
  destruct (canonical_rotate _ (Rot_SetCardan_RADIANS 0 0 0 NWU) (proj1 (canonical_translate _ (V 0 0 0) C1))) as [C3 _].
  destruct (Rle_dec (volume s) _); [lra|]. rewrite (world_pos (e_body e)) in Z; [|exact C|exact C3|rewrite FS; exact F0].
  change (HP_make_at (M 0 0 0 0 0 0 0 0 0) rho g m1 (GetPointPositionInWorld (e_body e) (e_cog e) NWU) origin NWU) with (HP_make (M 0 0 0 0 0 0 0 0 0) rho g m1 (GetPointPositionInWorld (e_body e) (e_cog e) NWU) NWU) in E. rewrite E in Z.
  destruct Z as [(K & _)|[(_ & _ & Z)|(_ & K & _)]]; [lia| |exfalso; apply K].
  - eexists. split; [exact Z|]. cbn [with_body e_body]. rewrite FS. exact F0.
  - unfold balance. cbn [with_body e_body e_mass e_tol e_cog]. rewrite (world_pos (e_body e)); [|exact C|exact C3|rewrite FS; exact F0]. rewrite A2, BR, LE.
    split; [apply unscaled; assumption|]. split; apply unscaled; try assumption.
    + rewrite Rabs_mult, (Rabs_pos_eq (ymax _ - ymin _)) by lra. exact H2.
    + rewrite Rabs_mult, (Rabs_pos_eq (xmax _ - xmin _)) by lra. rewrite <- Rabs_Ropp.
      match goal with |- Rabs ?a < _ => replace a with (rho * g * volume s * vx (centroid s) - e_mass e * g * vx (GetPointPositionInWorld (e_body e) (e_cog e) NWU)) by ring end. exact H3.
Qed.
Lemma areas_pos u : forall ls' qs', Forall2 (fun l p => FrPolygon_make (u l) l NWU = Some p) ls' qs' -> List.Forall closed_list ls' -> List.Forall waterline ls' -> 0 <= sum (map Pg_GetArea qs') /\ (ls' <> nil -> 0 < sum (map Pg_GetArea qs')).
Proof.
  induction 1 as [|l p ls' qs' E F IH]; intros H1 H2; [split; [unfold sum; cbn; lra|intros K; contradiction]|]. inversion H1; subst. inversion H2 as [|? ? W1 W2]; subst. destruct (IH ltac:(assumption) ltac:(assumption)) as [I1 _].
  destruct (level_polygon (u l) l p 1 ltac:(assumption) (proj1 W1) ltac:(lra)) as (_ & _ & Ar); [destruct W1; lra|exact E|]. unfold sum in *. cbn [map fold_right]. destruct W1 as [_ W1]. split; [|intros _]; lra.
Qed.
(** An iteration of SolveDisplacement on a body out of balance: it rises by h if the buoyancy exceeds
    the weight and sinks otherwise, by the excess of force over the heave stiffness rho g A (A: area of the
    waterplane) unless this is more than the relaxation. *)
Theorem C57_heave_step : forall fuel rho g u clip e ls, reachable (e_body e) -> (e_iter e <= e_max e)%nat -> 0 < rho * g -> 0 < vx (e_relax e) -> 0 < e_tol e ->
  let f := GetFrame (e_body e) in let m := clip f in let v := volume (soup_of (verts m) (faces m) ++ caps ls) in let w := e_mass e * g in let r := rho * g * v - w in
  floating u m ls -> 1 / 10 ^ 6 < v -> w <> 0 -> e_tol e * Rabs w <= Rabs r ->
  let k := rho * g * waterplane (fun _ => 1) ls in
  exists h e1, SolveDisplacement (S fuel) rho g u clip 0 e = SolveDisplacement fuel rho g u clip h e1 /\ GetFrame (e_body e1) = f /\ e_iter e1 = S (e_iter e) /\
    0 < k /\ 0 < h * r /\ Rabs h = Rmin (vx (e_relax e)) (Rabs r / k).
Proof.
  intros fuel rho g u clip e ls C I RG RL TO. apply reach_canonical in C. cbv zeta. intros FL V1 W NC.
  destruct (canonical_translate (e_body e) (V 0 0 0) C) as [C1 F1].
  assert (F0 : GetFrame (BTranslateInWorld (e_body e) (V 0 0 0) NWU) = GetFrame (e_body e)) by (rewrite F1; destruct (GetFrame (e_body e)) as [[] ?]; cbn; f_equal; apply vec_eq; cbn; ring).
  set (m := clip (GetFrame (e_body e))) in *. pose proof FL as (ops & ps & m0' & RUN & OO & SS & GP & Els & NE & WL & NZ). pose proof (run_coherent u ops _ _ (empty_coherent u) RUN) as CO.
  rewrite listed in Els. rewrite get_polys in GP by exact CO. destruct (CalcBoundaryPolygonSet u m) as [qs|] eqn:EQ; [|discriminate]. injection GP as -> _.
  destruct (calc_polys u m ps (consistent_oriented _ OO) (simple_simple _ OO SS) EQ) as (ls' & A1 & A2 & A3 & A4). subst ls ls'. set (ls := map pg_verts ps) in *.
  destruct (totals u ls ps A1 A2 WL) as (T1 & _ & _ & _ & _ & _ & T7). destruct (areas_pos u ls ps A1 A2 WL) as [_ AP]. specialize (AP NE). rewrite T7 in AP. change (mono POLY_1) with (fun _ : vec => 1) in AP, T1.
  assert (CP : List.Forall coplanar ls) by (apply Forall_forall; intros l Hl; apply waterline_coplanar; rewrite Forall_forall in WL; apply WL, Hl).
  pose proof (C36_hydrostatic_properties u m ls (M 0 0 0 0 0 0 0 0 0) rho g origin origin NWU FL ltac:(lra)) as (h0 & E0 & B1 & _).
  destruct (compute_reads u (HP_make_at (M 0 0 0 0 0 0 0 0 0) rho g m origin origin NWU) h0 CO E0) as (R1 & _). cbn [HP_make_at h_mesh] in R1. cbv zeta in B1. rewrite B1 in R1.
  set (v := volume (soup_of (verts m) (faces m) ++ caps ls)) in *. destruct (GetVolume u m) as [[v' m1]|] eqn:EV; [|discriminate]. cbn [option_map fst] in R1. assert (v' = v) by congruence. subst v'. clear h0 E0 B1 R1.
  destruct (volume_then u _ _ _ CO EV) as (C2 & Ev & Ef & _).
  assert (EM : CalcBoundaryPolygonSet u m1 = Some ps) by (rewrite (volume_value u m CO), EQ in EV; injection EV as _ <-; exact EQ).
  unfold SolveDisplacement. rewrite disp_unfold. cbv zeta. cbn [with_body e_body]. rewrite F0. fold m. rewrite EV. destruct (Rle_dec v _); [lra|]. destruct (Nat.ltb_spec (e_max e) (e_iter e)); [lia|].
  set (r := rho * g * v - e_mass e * g) in *. assert (AW : 0 < Rabs (e_mass e * g)) by (apply Rabs_pos_lt; exact W).
  destruct (Rlt_dec _ _) as [K|_]. { exfalso. apply scaled in K; [|exact W]. lra. }
  rewrite get_polys, EM by exact C2.
  set (K33 := fold_left _ ps 0). assert (EK : K33 = rho * g * waterplane (fun _ => 1) ls).
  { unfold K33. rewrite (fold_sum (fun p => rho * g * j1 (pg_ints p))), Rplus_0_l. rewrite <- T1, total_sum. unfold sum. clear. induction ps as [|p ps IH]; cbn; [ring|rewrite IH; ring]. }
  set (k := rho * g * waterplane (fun _ => 1) ls) in *. assert (PK : 0 < k) by (unfold k; apply Rmult_lt_0_compat; assumption).
  assert (R0 : r <> 0) by (intros K; rewrite K, Rabs_R0 in NC; pose proof (Rmult_lt_0_compat _ _ TO AW); lra).
  eexists _, _. split; [reflexivity|]. cbn [next_iter with_body e_body e_iter]. split; [exact F0|]. split; [reflexivity|]. split; [exact PK|]. rewrite EK. destruct (Req_EM_T k 0); [lra|].
  assert (AQ : Rabs (r / k) = Rabs r / k) by (unfold Rdiv; rewrite Rabs_mult, Rabs_inv, (Rabs_pos_eq k) by lra; reflexivity).
  unfold clamp, copysign. rewrite AQ. pose proof (Rinv_0_lt_compat k PK) as IK.
  assert (SG : 0 < r / k * r) by (unfold Rdiv; replace (r * / k * r) with (r * r * / k) by ring; apply Rmult_lt_0_compat; [|exact IK]; destruct (Rdichotomy _ _ R0); nra).
  destruct (Rlt_dec (vx (e_relax e)) (Rabs r / k)) as [L|L].
  - rewrite Rmin_left by lra. rewrite (Rabs_pos_eq (vx (e_relax e))) by lra. destruct (Rlt_dec (r / k) 0) as [N|N].
    + assert (r < 0) by nra. split; [nra|]. rewrite Rabs_Ropp. apply Rabs_pos_eq; lra.
    + assert (0 < r) by nra. split; [nra|]. apply Rabs_pos_eq; lra.
  - rewrite Rmin_right by lra. split; [exact SG|exact AQ].
Qed.
(** Non-vacuity.  The open box floats at the draught 1 while the origin of its body is below the
    height 1; the body is five metres away from the origin of the world. *)
Definition box_clip (f : frame) : mesh := if Rlt_dec (vz (fpos f)) 1 then MLoad empty_mesh hull_verts hull_faces else empty_mesh.
Definition far_box (cog : vec) : equil := EQ_make_at (body_run [BOSetPosition (V 5 0 0) NWU] newbody) 4100 cog NWU.
Lemma far_reachable cog : reachable (e_body (far_box cog)).
Proof. exists [BOSetPosition (V 5 0 0) NWU]. split; [repeat constructor|reflexivity]. Qed.
Lemma far_frame cog : GetFrame (e_body (far_box cog)) = Fr (V 5 0 0) qone.
Proof. unfold far_box, EQ_make_at. cbn [e_body body_run body_step]. rewrite newbody_can, setpos_can, frame_can. reflexivity. Qed.
Lemma hull_centroid : vx (centroid (soup_of hull_verts hull_faces ++ caps [hull_rim])) = 0 /\ vy (centroid (soup_of hull_verts hull_faces ++ caps [hull_rim])) = 0.
Proof.
  unfold centroid, scal3. cbn [vx vy]. unfold volume_integral.
  assert (T2 : forall (k : vec -> R), tet_f k (fun a b c => det3 a b c * (k a + k b + k c) / 24) -> forall s, sum (map (fun t : triangle => tet_integral k (fst (fst t)) (snd (fst t)) (snd t)) s) = sum (map (fun t => det3 (fst (fst t)) (snd (fst t)) (snd t) * (k (fst (fst t)) + k (snd (fst t)) + k (snd t)) / 24) s))
    by (intros k K s; apply sum_ext; intros t _; apply K).
  rewrite (T2 vx (tet_lin vx tetp_x)), (T2 vy (tet_lin vy tetp_y)). rewrite hull_volume. unfold soup_of, hull_faces, hull_verts, hull_rim, caps. cbn. unfold sum, det3, dot3, cross3. cbn. split; field.
Qed.
Lemma far_floating u cog : floating u (box_clip (GetFrame (e_body (far_box cog)))) [hull_rim].
Proof. rewrite far_frame. unfold box_clip. cbn [fpos vz]. destruct (Rlt_dec 0 1); [apply hull_floating|lra]. Qed.
Lemma far_position cog b : GetFrame b = Fr (V 5 0 0) qone -> canonical b -> GetPointPositionInWorld b cog NWU = plus3 (V 5 0 0) cog.
Proof.
  intros E (F & v & d & c & Ns & ->). rewrite frame_can in E. subst F. rewrite world_can. cbn [convert fpos frot]. rewrite qrotate_one. reflexivity.
Qed.
Lemma hull_bbox : let b := GetBoundingBox (MLoad empty_mesh hull_verts hull_faces) in ymin b < ymax b /\ xmin b < xmax b.
Proof.
  cbv zeta. destruct (bbox (MLoad empty_mesh hull_verts hull_faces)) as (B & _); rewrite load_empty in *; [discriminate|]. cbn [UpdateAllProperties verts] in B.
  pose proof (B (V (-1) (-1) 0) ltac:(left; reflexivity)) as (A1 & A2 & _). pose proof (B (V 1 1 0) ltac:(right; right; left; reflexivity)) as (C1 & C2 & _). cbn [vx vy] in *. lra.
Qed.
(** C57_converged, C123_offset_refuted, C57_moves, C57_at_equilibrium and C57_displacement: the solver
    accepts this body with its centre of gravity above the origin of the world, although it is
    five metres away from the centre of buoyancy; and C123_uninitialised_refuted with the value 2. *)
Example C57_not_vacuous : forall u lu, exists e', SolveEquilibrium 1 1025 10 u box_clip lu 0 (far_box (V (-5) 0 (1/2))) = Ret true e' /\ GetFrame (e_body e') = Fr (V 5 0 0) qone /\
  GetPointPositionInWorld (e_body e') (V (-5) 0 (1/2)) NWU = V 0 0 (1/2).
Proof.
  intros u lu. set (e := far_box (V (-5) 0 (1/2))). pose proof (far_floating u (V (-5) 0 (1/2))) as FL. pose proof (far_reachable (V (-5) 0 (1/2))) as RE. fold e in FL, RE.
  assert (CL : box_clip (GetFrame (e_body e)) = MLoad empty_mesh hull_verts hull_faces) by (unfold e; rewrite far_frame; unfold box_clip; cbn [fpos vz]; destruct (Rlt_dec 0 1); [reflexivity|lra]).
  assert (EP : GetPointPositionInWorld (e_body e) (e_cog e) NWU = V 0 0 (1/2)).
  { unfold e. rewrite (far_position _ _ (far_frame _) (reach_canonical _ RE)). unfold far_box, EQ_make_at. cbn [e_cog]. rewrite swap_convert. apply vec_eq; cbn; ring. }
  assert (Ev : verts (MLoad empty_mesh hull_verts hull_faces) = hull_verts) by (rewrite load_empty; reflexivity). assert (Ef : faces (MLoad empty_mesh hull_verts hull_faces) = hull_faces) by (rewrite load_empty; reflexivity).
  destruct hull_centroid as [HX HY]. destruct hull_bbox as [BY BX].
  destruct (C57_at_equilibrium 1 1025 10 u box_clip lu e [hull_rim] RE) as (e' & E & FR); rewrite ?CL, ?EP, ?Ev, ?Ef, ?hull_volume, ?HX, ?HY in *; cbn [vx vy vz] in *; try assumption; try lra; try (unfold e, far_box, EQ_make_at; cbn [e_iter e_max e_mass e_tol]; lia).
  - unfold e, far_box, EQ_make_at; cbn [e_mass]. lra.
  - unfold e, far_box, EQ_make_at; cbn [e_mass e_tol]. replace (1025 * 10 * 4 - 4100 * 10) with 0 by ring. rewrite Rabs_R0, Rabs_pos_eq by lra. lra.
  - unfold e, far_box, EQ_make_at; cbn [e_mass e_tol]. replace (1025 * 10 * 4 * 0 - 4100 * 10 * 0) with 0 by ring. rewrite Rabs_R0. apply Rmult_lt_0_compat; [lra|]. apply Rmult_lt_0_compat; [apply Rabs_pos_lt; lra|lra].
  - unfold e, far_box, EQ_make_at; cbn [e_mass e_tol]. replace (1025 * 10 * 4 * 0 - 4100 * 10 * 0) with 0 by ring. rewrite Rabs_R0. apply Rmult_lt_0_compat; [lra|]. apply Rmult_lt_0_compat; [apply Rabs_pos_lt; lra|lra].
  - exists e'. split; [exact E|]. assert (FR5 : GetFrame (e_body e') = Fr (V 5 0 0) qone) by (rewrite FR; apply far_frame). split; [exact FR5|].
    assert (CA : canonical (e_body e')).
    { unfold SolveEquilibrium, SolveDisplacement in E. destruct (disp_loop 1 1025 10 u box_clip 0 e) as [b1 e1| |] eqn:ED; try discriminate. destruct (disp_settings _ _ _ _ _ _ _ _ _ ED) as [S1 _].
      assert (R0 : 0 <= vx (e_relax e)) by (unfold e, far_box, EQ_make_at; cbn [e_relax vx]; lra).
      destruct (disp_moves _ _ _ _ _ _ _ _ _ R0 (reach_canonical _ RE) ED) as (C1 & _). destruct S1 as (_ & _ & S3 & _).
      destruct (equil_position _ _ _ _ _ _ _ _ _ _ C1 ltac:(rewrite S3; exact R0) E) as (C2 & _). exact C2. }
    rewrite (far_position _ _ FR5 CA). apply vec_eq; cbn; ring.
Qed.
Example C57_uninitialised_not_vacuous : forall u,
  (exists e', SolveDisplacement 1 1025 10 u box_clip 0 (far_box (V (-5) 0 0)) = Ret true e') /\ (exists e', SolveDisplacement 1 1025 10 u box_clip 2 (far_box (V (-5) 0 0)) = Ret false e').
Proof.
  intros u. destruct (C32_holes_not_vacuous u) as (m & m1 & RUN & _ & VOL). cbn [mesh_run mesh_step] in RUN. assert (Em : m = MLoad empty_mesh hull_verts hull_faces) by congruence. subst m.
  apply (C123_uninitialised_refuted 1025 10 u box_clip (far_box (V (-5) 0 0)) 2 4 m1 0 (filled empty_mesh [])); rewrite ?far_frame; try (unfold far_box, EQ_make_at; cbn [e_mass e_tol e_iter e_max]; (lra || lia)).
  - apply far_reachable.
  - unfold box_clip. cbn [fpos vz]. destruct (Rlt_dec 0 1); [exact VOL|lra].
  - unfold box_clip. cbn [fpos frot plus3 vz]. destruct (Rlt_dec (0 + 2) 1); [lra|]. rewrite (volume_value u _ (empty_coherent u)). rewrite (closed_calc u empty_mesh) by reflexivity.
    unfold GetMeshedSurfaceIntegralN, sum. cbn. f_equal. f_equal. ring.
Qed.
(** A submerged box in neutral balance *)
Example C57_submerged_not_vacuous : forall u lu, let clip := fun _ : frame => MTranslate (CreateBox empty_mesh 2 1 2) (V 0 0 (-9)) in SolveEquilibrium 1 1025 10 u clip lu 0 (far_box (V (-5) 0 0)) = Stuck.
Proof.
  intros u lu. cbv zeta. destruct (C32_box u 2 1 2 [MOTranslate (V 0 0 (-9))]) as (m & RUN & WT & VOL0 & _); [repeat constructor|]. cbn [mesh_run mesh_step] in RUN. assert (Em : m = MTranslate (CreateBox empty_mesh 2 1 2) (V 0 0 (-9))) by congruence. subst m.
  destruct (GetVolume u (MTranslate (CreateBox empty_mesh 2 1 2) (V 0 0 (-9)))) as [[v m1]|] eqn:VOL; [|discriminate]. cbn [option_map fst] in VOL0. assert (v = 2 * 1 * 2) by congruence. subst v.
  apply (C123_submerged_refuted 1 1025 10 u _ lu (far_box (V (-5) 0 0)) (2 * 1 * 2) m1); try (unfold far_box, EQ_make_at; cbn [e_mass e_tol e_iter e_max]; (lra || lia)); [apply far_reachable| |exact WT|exact VOL].
  exists [MOBox 2 1 2; MOTranslate (V 0 0 (-9))]. reflexivity.
Qed.
