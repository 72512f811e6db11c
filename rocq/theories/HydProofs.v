(** Proofs for C36: waterplane polygons. *)
From Coq Require Import Reals List Lra Lia Permutation Arith Bool.
From Coquelicot Require Import Coquelicot.
From Verif Require Import GeoModel GeoSpec GeoProofs GeoProofs2 GeoProofs3 GeoProofs4 BodyModel MeshModel MeshSpec MeshProofs MeshProofs2 MeshProofs3 MeshProofs4 MeshProofs5 MeshProofs6 MeshProofs7 MeshProofs8 HydModel HydSpec.
Import ListNotations.
Open Scope R_scope.

Lemma make_built u vs p : FrPolygon_make u vs NWU = Some p -> exists G, BuildFrame G (pl_normal (pg_plane p)) = Some (pl_frame (pg_plane p)).
Proof.
  unfold FrPolygon_make. destruct (FrPlane_cloud _ NWU) as [pl|] eqn:E; [|discriminate]. destruct (all_planar _ _); [|discriminate].
  destruct (ComputeSurfacePolynomialIntegrals _ _); [|discriminate]. intros H; injection H as <-. cbn [pg_plane].
  unfold FrPlane_cloud in E. destruct (map (swap_if NWU) vs); [discriminate|]. unfold with_frame in E.
  destruct (BuildFrame _ _) eqn:B; [|discriminate]. injection E as <-. cbn [pl_normal pl_frame]. eexists. exact B.
Qed.
Lemma normalize_id v : unit3 v -> vnormalize v = v.
Proof.
  intros U. assert (P : 0 < dot3 v v) by (rewrite U; lra). destruct (normalize_unit3 v P) as [_ E]. rewrite U, sqrt_1 in E.
  rewrite E at 2. generalize (vnormalize v); intros []; apply vec_eq; geo; ring.
Qed.
Lemma level_frame G f s : s * s = 1 -> BuildFrame G (V 0 0 s) = Some f -> forall p, local f p = V (s * vx p) (vy p) (s * (vz p - vz (fpos f))).
Proof.
  intros S2 H. assert (U : unit3 (V 0 0 s)) by (unfold unit3, dot3; cbn; lra).
  destruct (build_frame G _ U) as (f' & E & P & Q & _). rewrite H in E. injection E as <-.
  unfold BuildFrame in H. destruct (ClosestPointOnPlane _ _ _ _); [|discriminate].
  assert (X : vnormalize (vcross (V 0 0 s) (V 0 (-1) 0)) = V s 0 0).
  { replace (vcross (V 0 0 s) (V 0 (-1) 0)) with (V s 0 0) by (apply vec_eq; geo; ring). apply normalize_id. unfold unit3, dot3; cbn; lra. }
  rewrite X in H.
  assert (NX : vnorm (V s 0 0) = 1) by (unfold vnorm, vdot; cbn [vx vy vz]; replace (s * s + 0 * 0 + 0 * 0) with 1 by lra; apply sqrt_1).
  rewrite NX in H. destruct (Rlt_dec 1 (1 / 10 ^ 8)) as [K|_]; [lra|].
  assert (Y : vnormalize (vcross (V 0 0 s) (V s 0 0)) = V 0 1 0).
  { replace (vcross (V 0 0 s) (V s 0 0)) with (V 0 1 0) by (apply vec_eq; geo; lra). apply normalize_id. unfold unit3, dot3; cbn; lra. }
  rewrite Y in H. cbn [vx vy vz] in H.
  assert (RM : rotation_matrix (M s 0 0 0 1 0 0 0 s)).
  { unfold rotation_matrix, mdet, mm, mt, mid, dot3, cross3; cbn. repeat split; try (f_equal; lra); lra. }
  destruct (matrix_roundtrip _ RM) as [K _].
  assert (EP : f = Fr v (UQ_SetMatrix (M s 0 0 0 1 0 0 0 s) NWU)) by congruence.
  assert (K' : Set_A_quaternion (frot f) = M s 0 0 0 1 0 0 0 s) by (rewrite EP; exact K).
  intros p. unfold local.
  assert (CJ : Set_A_quaternion (qconj (frot f)) = mt (Set_A_quaternion (frot f))).
  { generalize (frot f); intros []; unfold mt; geo; meq; ring. }
  rewrite <- qrotate_mat, CJ, K'. rewrite P. cbn [scal3]. destruct p as [a b c]. unfold mt, mv, minus3, scal3, dot3. cbn. apply vec_eq; cbn; ring.
Qed.

Lemma level_area l : (forall v, In v l -> vz v = 0) -> vx (vector_area l) = 0 /\ vy (vector_area l) = 0.
Proof.
  induction l as [|a l IH]; [split; reflexivity|]. intros H. destruct l as [|b l]; [split; reflexivity|].
  rewrite va_cons. destruct IH as [I1 I2]; [intros; apply H; right; assumption|]. pose proof (H a ltac:(left; reflexivity)) as A. pose proof (H b ltac:(right; left; reflexivity)) as B.
  unfold plus3, scal3, cross3. cbn [vx vy]. rewrite I1, I2, A, B. split; ring.
Qed.
Lemma level_polygon u vs p s : closed_list vs -> (forall v, In v vs -> vz v = 0) -> s * s = 1 -> 0 < s * vz (vector_area vs) -> FrPolygon_make u vs NWU = Some p ->
  ComputeSurfacePolynomialIntegrals u (map (fun v => V (s * vx v) (vy v) 0) vs) = Some (pg_ints p) /\ pg_verts p = vs /\ Pg_GetArea p = s * vz (vector_area vs).
Proof.
  intros C Z S2 P H. destruct (level_area vs Z) as [A1 A2].
  assert (NZ : vector_area vs <> origin) by (intros E; rewrite E in P; cbn in P; lra).
  destruct (make_polygon u vs p C H NZ) as (n & e & f & OK & PL).
  assert (CO : coplanar vs). { exists (V 0 0 1), 0. split; [intros K; injection K; lra|]. intros q Hq. unfold dot3; cbn [vx vy vz]. rewrite (Z q Hq). ring. }
  specialize (PL CO). pose proof (area_contribution p vs n e f OK C PL) as AR.
  pose proof (po_area _ _ _ _ _ OK) as PA. set (V0 := vector_area vs) in *.
  assert (SQ : sqrt (dot3 V0 V0) = s * vz V0).
  { unfold dot3. rewrite A1, A2. replace (0 * 0 + 0 * 0 + vz V0 * vz V0) with ((s * vz V0) * (s * vz V0)) by (transitivity (s * s * (vz V0 * vz V0)); [ring|rewrite S2; ring]). apply sqrt_square. lra. }
  rewrite SQ in *.
  assert (EN : n = V 0 0 s).
  { clear -PA A1 A2 P S2. destruct n as [n1 n2 n3]. destruct V0 as [a b c]. cbn [vx vy vz] in *. subst a b. unfold scal3 in PA. cbn [vx vy vz] in PA. injection PA as E1 E2 E3.
    assert (N1 : n1 = 0) by (destruct (Rmult_integral _ _ (eq_sym E1)); [lra|assumption]). assert (N2 : n2 = 0) by (destruct (Rmult_integral _ _ (eq_sym E2)); [lra|assumption]).
    assert (N3 : n3 = s). { assert (c * (n3 * s - 1) = 0) by lra. assert (c <> 0) by (intros ->; lra). assert (n3 * s = 1) by (destruct (Rmult_integral _ _ H); [contradiction|lra]). transitivity (n3 * (s * s)); [rewrite S2; ring|]. transitivity (n3 * s * s); [ring|]. rewrite H1; ring. }
    congruence. }
  destruct (make_built u vs p H) as (G & B). rewrite (po_normal _ _ _ _ _ OK), (po_frame _ _ _ _ _ OK) in B. subst n.
  pose proof (level_frame G f s S2 B) as L.
  assert (E0 : e = 0). { destruct vs as [|v vs']; [destruct C|]. rewrite <- (PL v ltac:(left; reflexivity)). unfold dot3; cbn [vx vy vz]. rewrite (Z v ltac:(left; reflexivity)). ring. }
  assert (F0 : vz (fpos f) = 0) by (rewrite (po_pos _ _ _ _ _ OK), E0; cbn; ring).
  split; [|split; [exact (po_verts _ _ _ _ _ OK)|exact AR]].
  unfold FrPolygon_make in H.
  assert (MV : map (swap_if NWU) vs = vs) by (rewrite <- (map_id vs) at 2; apply map_ext; reflexivity). rewrite MV in H.
  destruct (FrPlane_cloud vs NWU) as [pl|]; [|discriminate]. destruct (all_planar pl vs); [|discriminate].
  destruct (ComputeSurfacePolynomialIntegrals u _) as [j|] eqn:EJ; [|discriminate]. injection H as <-. cbn [pg_ints]. rewrite <- EJ. f_equal.
  apply map_ext_in. intros q Hq. rewrite pointinv_convert. cbn [convert].
  assert (Ef : pl_frame pl = f) by (exact (po_frame _ _ _ _ _ OK)). fold (local (pl_frame pl) q). rewrite Ef, L, F0, (Z q Hq). apply vec_eq; cbn; ring.
Qed.
Lemma level_integrals u vs p : closed_list vs -> waterline vs -> FrPolygon_make u vs NWU = Some p -> let I t := fan (mono t) origin vs in
  j1 (pg_ints p) = I POLY_1 /\ jx (pg_ints p) = I POLY_X /\ jy (pg_ints p) = I POLY_Y /\ jxy (pg_ints p) = I POLY_XY /\ jx2 (pg_ints p) = I POLY_X2 /\ jy2 (pg_ints p) = I POLY_Y2 /\
  pg_verts p = vs /\ Pg_GetArea p = I POLY_1.
Proof.
  intros C [Z P] H. cbv zeta. destruct (level_polygon u vs p 1 C Z ltac:(lra) ltac:(lra) H) as (E & Ev & A).
  replace (map (fun v => V (1 * vx v) (vy v) 0) vs) with vs in E.
  2:{ rewrite <- (map_id vs) at 1. apply map_ext_in. intros v Hv. rewrite <- (Z v Hv). destruct v; apply vec_eq; cbn; ring. }
  destruct (compute_path _ _ _ E) as (A1 & A2 & A3 & A4 & A5 & A6 & _).
  rewrite (fan_closed _ _ origin _ exact_1 C), (fan_closed _ _ origin _ exact_x C), (fan_closed _ _ origin _ exact_y C), (fan_closed _ _ origin _ exact_xy C), (fan_closed _ _ origin _ exact_x2 C), (fan_closed _ _ origin _ exact_y2 C).
  unfold Pg_GetArea. repeat split; assumption.
Qed.

(** ** ComputeProperties *)
Lemma total_sum get ps : poly_total get ps = sum (map (fun p => get (pg_ints p)) ps).
Proof. unfold poly_total. rewrite (fold_sum (fun p => get (pg_ints p))). ring. Qed.
Lemma waterline_coplanar l : waterline l -> coplanar l.
Proof. intros [Z _]. exists (V 0 0 1), 0. split; [intros K; injection K; lra|]. intros q Hq. unfold dot3; cbn [vx vy vz]. rewrite (Z q Hq). ring. Qed.
Lemma totals u ls ps : Forall2 (fun l p => FrPolygon_make (u l) l NWU = Some p) ls ps -> List.Forall closed_list ls -> List.Forall waterline ls ->
  let W t := waterplane (mono t) ls in
  poly_total j1 ps = W POLY_1 /\ poly_total jx ps = W POLY_X /\ poly_total jy ps = W POLY_Y /\ poly_total jxy ps = W POLY_XY /\ poly_total jx2 ps = W POLY_X2 /\ poly_total jy2 ps = W POLY_Y2 /\
  sum (map Pg_GetArea ps) = W POLY_1.
Proof.
  intros F C L. cbv zeta. rewrite !total_sum. unfold waterplane. induction F as [|l p ls ps E F IH]; [repeat split; reflexivity|].
  inversion C; subst. inversion L; subst. destruct IH as (B1 & B2 & B3 & B4 & B5 & B6 & B7); try assumption.
  destruct (level_integrals (u l) l p) as (A1 & A2 & A3 & A4 & A5 & A6 & A7 & A8); try assumption.
  unfold sum in *. cbn [map fold_right]. rewrite A1, A2, A3, A4, A5, A6, A8, B1, B2, B3, B4, B5, B6, B7. repeat split; reflexivity.
Qed.
Lemma fold_sub {A} (g : A -> R) l : forall a, fold_left (fun v p => v - g p) l a = a - sum (map g l).
Proof. unfold sum. induction l as [|x l IH]; intros a; cbn; [ring|]. rewrite IH. ring. Qed.

(** Extreme values *)
Definition upd_range (b : R * R) (x : R * R) : R * R := (Rmin (fst b) (fst x), Rmax (snd b) (snd x)).
Lemma range_fold {A} (lo hi : A -> R) l : forall b0, let b := fold_left (fun b x => (Rmin (fst b) (lo x), Rmax (snd b) (hi x))) l b0 in
  (fst b <= fst b0 /\ (forall x, In x l -> fst b <= lo x) /\ (fst b = fst b0 \/ exists x, In x l /\ fst b = lo x)) /\
  (snd b0 <= snd b /\ (forall x, In x l -> hi x <= snd b) /\ (snd b = snd b0 \/ exists x, In x l /\ snd b = hi x)).
Proof.
  induction l as [|x l IH]; intros b0; cbn [fold_left].
  - repeat split; try (right; fail); try lra; try (intros ? []); left; reflexivity.
  - destruct (IH (Rmin (fst b0) (lo x), Rmax (snd b0) (hi x))) as ((A1 & A2 & A3) & (B1 & B2 & B3)). cbv zeta in *. set (b := fold_left _ _ _) in *. cbn [fst snd] in *.
    pose proof (Rmin_l (fst b0) (lo x)). pose proof (Rmin_r (fst b0) (lo x)). pose proof (Rmax_l (snd b0) (hi x)). pose proof (Rmax_r (snd b0) (hi x)).
    repeat split; try lra.
    + intros y [<-|Hy]; [lra|apply A2, Hy].
    + destruct A3 as [A3|(y & Hy & A3)]; [|right; exists y; split; [right; exact Hy|exact A3]].
      unfold Rmin in A3 at 1. destruct (Rle_dec (fst b0) (lo x)); [left; exact A3|right; exists x; split; [left; reflexivity|exact A3]].
    + intros y [<-|Hy]; [lra|apply B2, Hy].
    + destruct B3 as [B3|(y & Hy & B3)]; [|right; exists y; split; [right; exact Hy|exact B3]].
      unfold Rmax in B3 at 1. destruct (Rle_dec (snd b0) (hi x)); [right; exists x; split; [left; reflexivity|exact B3]|left; exact B3].
Qed.
Lemma xrange_ok p : pg_verts p <> nil -> is_min vx (pg_verts p) (fst (polygon_xrange p)) /\ is_max vx (pg_verts p) (snd (polygon_xrange p)).
Proof.
  intros N. unfold polygon_xrange. destruct (range_fold vx vx (pg_verts p) (vx (hd vzero (pg_verts p)), vx (hd vzero (pg_verts p)))) as ((A1 & A2 & A3) & (B1 & B2 & B3)).
  cbv zeta in *. set (b := fold_left _ _ _) in *. cbn [fst snd] in *.
  assert (I : In (hd vzero (pg_verts p)) (pg_verts p)) by (destruct (pg_verts p); [contradiction|left; reflexivity]).
  split; split; auto.
  - destruct A3 as [A3|(x & Hx & A3)]; [exists (hd vzero (pg_verts p))|exists x]; split; auto.
  - destruct B3 as [B3|(x & Hx & B3)]; [exists (hd vzero (pg_verts p))|exists x]; split; auto.
Qed.
Definition xranges (p0 : polygon) (ps : list polygon) : R * R :=
  fold_left (fun b p => (Rmin (fst b) (fst (polygon_xrange p)), Rmax (snd b) (snd (polygon_xrange p)))) (p0 :: ps) (polygon_xrange p0).
Lemma xranges_ok p0 ps : (forall p, In p (p0 :: ps) -> pg_verts p <> nil) ->
  is_min vx (concat (map pg_verts (p0 :: ps))) (fst (xranges p0 ps)) /\ is_max vx (concat (map pg_verts (p0 :: ps))) (snd (xranges p0 ps)).
Proof.
  intros N. unfold xranges. destruct (range_fold (fun p => fst (polygon_xrange p)) (fun p => snd (polygon_xrange p)) (p0 :: ps) (polygon_xrange p0)) as ((A1 & A2 & A3) & (B1 & B2 & B3)).
  cbv zeta in *. set (b := fold_left _ _ _) in *. clearbody b.
  assert (K : forall p, In p (p0 :: ps) -> forall v, In v (pg_verts p) -> In v (concat (map pg_verts (p0 :: ps)))).
  { intros p Hp v Hv. apply in_concat. exists (pg_verts p). split; [apply in_map, Hp|exact Hv]. }
  assert (K2 : forall v, In v (concat (map pg_verts (p0 :: ps))) -> exists p, In p (p0 :: ps) /\ In v (pg_verts p)).
  { intros v Hv. apply in_concat in Hv as (l & Hl & Hv). apply in_map_iff in Hl as (p & <- & Hp). eauto. }
  assert (P0 : In p0 (p0 :: ps)) by (left; reflexivity).
  split; split.
  - assert (E : exists p, In p (p0 :: ps) /\ fst b = fst (polygon_xrange p)) by (destruct A3 as [A3|A3]; [exists p0; split; auto|exact A3]).
    destruct E as (p & Hp & E). destruct (xrange_ok p (N p Hp)) as [[(v & Hv & Ev) _] _]. exists v. split; [exact (K p Hp v Hv)|congruence].
  - intros v Hv. destruct (K2 v Hv) as (p & Hp & Hv'). destruct (xrange_ok p (N p Hp)) as [[_ M] _]. pose proof (A2 p Hp). pose proof (M v Hv'). lra.
  - assert (E : exists p, In p (p0 :: ps) /\ snd b = snd (polygon_xrange p)) by (destruct B3 as [B3|B3]; [exists p0; split; auto|exact B3]).
    destruct E as (p & Hp & E). destruct (xrange_ok p (N p Hp)) as [_ [(v & Hv & Ev) _]]. exists v. split; [exact (K p Hp v Hv)|congruence].
  - intros v Hv. destruct (K2 v Hv) as (p & Hp & Hv'). destruct (xrange_ok p (N p Hp)) as [_ [_ M]]. pose proof (B2 p Hp). pose proof (M v Hv'). lra.
Qed.

Section Compute.
Variables (u : list vec -> junk) (h : hprops) (p0 : polygon) (ps : list polygon).
Let m := h_mesh h.
Let qs := p0 :: ps.
Let ls := map pg_verts qs.
Let s := mesh_soup m ++ caps ls.
Let W t := waterplane (mono t) ls.
Hypotheses (C : coherent u m) (O : consistent (faces m)) (S1 : simple_borders (faces m)) (E : CalcBoundaryPolygonSet u m = Some qs)
  (WL : List.Forall waterline ls) (NZ : volume s <> 0).
Let rg := h_rho h * h_g h.
Hypothesis RG : rg <> 0.
Let rx := vx (h_red h).
Let ry := vy (h_red h).
Let bmt := (W POLY_Y2 - 2 * ry * W POLY_Y + ry * ry * W POLY_1) / volume s.
Let bml := (W POLY_X2 - 2 * rx * W POLY_X + rx * rx * W POLY_1) / volume s.
Let bb := GetBoundingBox m.
Lemma compute_value : ComputeProperties u h = Some (HP (h_rho h) (h_g h) (filled m qs) (volume s) (h_wparea h + W POLY_1)
   (sum (map triangle_area (mesh_soup m))) (V (W POLY_X / W POLY_1) (W POLY_Y / W POLY_1) (zmax bb)) (centroid s) (h_cog h)
   (Rabs (zmax bb - zmin bb)) (xmax bb - xmin bb) (ymax bb - ymin bb) (snd (xranges p0 ps) - fst (xranges p0 ps))
   (h_rt h + bmt) (h_rl h + bml) (h_rt h + bmt + (vz (centroid s) - vz (h_cog h))) (h_rl h + bml + (vz (centroid s) - vz (h_cog h)))
   (let K34 := rg * (W POLY_Y - ry * W POLY_1) in let K35 := - rg * (W POLY_X - rx * W POLY_1) in
    let K45 := - rg * (W POLY_XY - ry * W POLY_X - rx * W POLY_Y + rx * ry * W POLY_1) in
    M (rg * W POLY_1) K34 K35 K34 (rg * volume s * (h_rt h + bmt + (vz (centroid s) - vz (h_cog h)))) K45 K35 K45 (rg * volume s * (h_rl h + bml + (vz (centroid s) - vz (h_cog h))))) (h_red h))
.
Proof.
  assert (CO : List.Forall coplanar (map pg_verts qs)) by (apply Forall_forall; intros l Hl; apply waterline_coplanar; rewrite Forall_forall in WL; apply WL, Hl).
  unfold ComputeProperties, CalcGeometricProperties. fold m. rewrite get_polys, E by exact C. unfold qs at 1. fold (xranges p0 ps). fold bb.
  unfold CalcHydrostaticProperties. cbn [h_mesh h_rho h_g h_volume h_wparea h_red h_cog h_rt h_rl h_draught h_length h_breadth h_lwl h_K].
  change (filled m (p0 :: ps)) with (filled m qs).
  set (m1 := filled m qs).
  assert (C1 : coherent u m1) by (apply filled_coherent; [apply C|exact E]).
  assert (E1 : CalcBoundaryPolygonSet u m1 = Some qs) by exact E.
  assert (F1 : filled m1 qs = m1) by reflexivity.
  rewrite (capped_volume u m1 qs C1 O S1 E1 CO), F1. rewrite (capped_cog u m1 qs C1 O S1 E1 CO) by exact NZ. rewrite F1.
  rewrite (capped_area u m1 qs C1 O S1 E1 CO), F1. rewrite get_polys, E1, F1 by exact C1.
  change (mesh_soup m1) with (mesh_soup m). fold ls. fold s. change (GetBoundingBox m1) with bb.
  rewrite fold_sub.
  destruct (calc_polys u m qs (consistent_oriented _ O) (simple_simple _ O S1) E) as (ls' & A1 & A2 & A3 & A4). fold ls in A4. subst ls'.
  destruct (totals u ls qs A1 A2 WL) as (T1 & T2 & T3 & T4 & T5 & T6 & T7). rewrite T1, T2, T3, T4, T5, T6, T7.
  destruct (capped_facts u m qs C O S1 E CO) as (_ & _ & _ & _ & _ & AR). fold ls in AR. rewrite <- AR, T7.
  cbv zeta. fold (W POLY_1) (W POLY_X) (W POLY_Y) (W POLY_XY) (W POLY_X2) (W POLY_Y2). fold rg rx ry. fold bmt bml. unfold SetNonDiagonal, SetDiagonal, SetK33, SetK44, SetK55, SetK34, SetK35, SetK45. cbn [m00 m01 m02 m10 m11 m12 m20 m21 m22].
  assert (WP : 0 < W POLY_1).
  { unfold W. rewrite <- T7. clear -A1 A2 WL. subst qs.
    assert (G : forall ls' qs', Forall2 (fun l p => FrPolygon_make (u l) l NWU = Some p) ls' qs' -> List.Forall closed_list ls' -> List.Forall waterline ls' -> 0 <= sum (map Pg_GetArea qs') /\ (qs' <> nil -> 0 < sum (map Pg_GetArea qs'))).
    { induction 1 as [|l p ls' qs' E F IH]; intros H1 H2; [split; [unfold sum; cbn; lra|intros K; contradiction]|]. inversion H1; subst. inversion H2 as [|? ? W1 W2]; subst. destruct (IH ltac:(assumption) ltac:(assumption)) as [I1 _].
      destruct (level_polygon (u l) l p 1 ltac:(assumption) (proj1 W1) ltac:(lra)) as (_ & _ & Ar); [destruct W1; lra|exact E|]. unfold sum in *. cbn [map fold_right]. destruct W1 as [_ W1]. split; [|intros _]; lra. }
    apply (G ls (p0 :: ps) A1 A2 WL). discriminate. }
  set (W1 := W POLY_1) in *. assert (R2 : W1 <> 0) by lra.
  f_equal. f_equal; try ring; [apply vec_eq; cbn [vx vy vz]; try reflexivity; field; auto|f_equal; ring].
Qed.
End Compute.
