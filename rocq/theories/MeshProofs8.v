(** Volume, centre of gravity, area, inertia of a mesh; operations; rigid motions (C32). *)
From Coq Require Import Reals List Lra Lia Permutation Arith Bool.
From Coquelicot Require Import Coquelicot.
From Verif Require Import GeoModel GeoSpec GeoProofs GeoProofs2 GeoProofs3 GeoProofs4 MeshModel MeshSpec MeshProofs MeshProofs2 MeshProofs3 MeshProofs4 MeshProofs5 MeshProofs6 MeshProofs7.
Import ListNotations.
Open Scope R_scope.

(** ** Correspondence with the specification *)
Lemma face_edges_spec fs : face_edges fs = mesh_edges fs.
Proof. unfold face_edges, mesh_edges. f_equal. apply map_ext. intros [[a b] c]. reflexivity. Qed.
Lemma consistent_oriented fs : consistent fs -> oriented fs.
Proof. unfold consistent, oriented. rewrite face_edges_spec. auto. Qed.
Lemma border_in fs e : border fs e <-> In e (boundary_halfedges fs).
Proof. rewrite in_boundary, face_edges_spec. destruct e. reflexivity. Qed.
Lemma simple_simple fs : consistent fs -> simple_borders fs -> simple_border fs.
Proof.
  intros C S1. unfold simple_border. assert (N : NoDup (boundary_halfedges fs)) by (apply boundary_NoDup, consistent_oriented, C).
  assert (H : forall x y, In x (boundary_halfedges fs) -> In y (boundary_halfedges fs) -> fst x = fst y -> x = y).
  { intros [a b] [a' c] Hx Hy E. cbn in E. subst a'. apply border_in in Hx. apply border_in in Hy. rewrite (S1 a b c Hx Hy). reflexivity. }
  clear C S1. induction (boundary_halfedges fs) as [|x l IH]; [constructor|]. cbn. inversion N; subst. constructor.
  - intros K. apply in_map_iff in K as (y & E & K). apply H2. rewrite (H x y) by (cbn; auto). exact K.
  - apply IH; auto. intros; apply H; cbn; auto.
Qed.
Lemma watertight_iff m : IsWatertight m = true <-> (forall a b, In (a, b) (mesh_edges (faces m)) -> In (b, a) (mesh_edges (faces m))).
Proof.
  unfold IsWatertight, HasBoundaries. rewrite negb_true_iff, face_edges_spec. set (E := mesh_edges (faces m)).
  split.
  - intros H a b K. destruct (edge_mem (b, a) E) eqn:F; [apply edge_mem_in; exact F|]. exfalso.
    assert (existsb (fun e => negb (edge_mem (opposite e) E)) E = true); [|congruence]. apply existsb_exists. exists (a, b). split; [exact K|]. cbn. unfold opposite; cbn. rewrite F. reflexivity.
  - intros H. destruct (existsb (fun e => negb (edge_mem (opposite e) E)) E) eqn:F; [|reflexivity]. apply existsb_exists in F as ([a b] & K & L).
    apply negb_true_iff, edge_mem_out in L. exfalso. apply L, H, K.
Qed.

(** ** Cache *)
Definition coherent (u : list vec -> junk) (m : mesh) : Prop := fresh m /\ (polys m = None \/ CalcBoundaryPolygonSet u m = polys m).
Definition filled (m : mesh) (ps : list polygon) : mesh := Mesh (verts m) (faces m) (fdata m) (Some ps).
Lemma get_polys u m : coherent u m -> GetBoundaryPolygonSet u m = match CalcBoundaryPolygonSet u m with Some ps => Some (ps, filled m ps) | None => None end.
Proof.
  intros [F C]. unfold GetBoundaryPolygonSet. destruct C as [C|C].
  - rewrite C. destruct (CalcBoundaryPolygonSet u m); reflexivity.
  - rewrite C. destruct (polys m) as [ps|] eqn:E.
    + destruct m; cbn in E; subst; reflexivity.
    + reflexivity.
Qed.
Lemma filled_coherent u m ps : fresh m -> CalcBoundaryPolygonSet u m = Some ps -> coherent u (filled m ps).
Proof. intros F C. split; [exact F|right; exact C]. Qed.
Lemma volume_value u m : coherent u m -> GetVolume u m =
  match CalcBoundaryPolygonSet u m with Some ps => Some (GetMeshedSurfaceIntegralN m 2 POLY_Z + sum (map polygon_volume ps), filled m ps) | None => None end.
Proof. intros C. unfold GetVolume. rewrite get_polys by exact C. destruct (CalcBoundaryPolygonSet u m); [|reflexivity]. rewrite fold_sum. reflexivity. Qed.
Lemma area_value u m : coherent u m -> GetArea u m =
  match CalcBoundaryPolygonSet u m with Some ps => Some (GetMeshedSurfaceArea m + sum (map Pg_GetArea ps), filled m ps) | None => None end.
Proof. intros C. unfold GetArea. rewrite get_polys by exact C. destruct (CalcBoundaryPolygonSet u m); [|reflexivity]. rewrite fold_sum. reflexivity. Qed.
Lemma fold_vsum k (g : polygon -> vec) l : forall a, fold_left (fun v p => vadd v (vscale k (g p))) l a =
  V (vx a + k * sum (map (fun p => component 0 (g p)) l)) (vy a + k * sum (map (fun p => component 1 (g p)) l)) (vz a + k * sum (map (fun p => component 2 (g p)) l)).
Proof.
  unfold sum. induction l as [|x l IH]; intros a; cbn [fold_left map fold_right]; [destruct a; apply vec_eq; cbn; ring|]. rewrite IH. cbn [component].
  apply vec_eq; cbn [vx vy vz vadd vscale]; ring.
Qed.
Definition cog_sum (m : mesh) (ps : list polygon) (i : nat) (t : poly) : R := GetMeshedSurfaceIntegralN m i t + sum (map (fun p => component i (polygon_cog p)) ps).
Lemma cog_value u m : coherent u m -> GetCOG u m =
  match CalcBoundaryPolygonSet u m with
  | Some ps => let k := (1/2) / (GetMeshedSurfaceIntegralN m 2 POLY_Z + sum (map polygon_volume ps)) in
      Some (V (k * cog_sum m ps 0 POLY_X2) (k * cog_sum m ps 1 POLY_Y2) (k * cog_sum m ps 2 POLY_Z2), filled m ps)
  | None => None end.
Proof.
  intros C. unfold GetCOG. rewrite volume_value by exact C. destruct (CalcBoundaryPolygonSet u m) as [ps|] eqn:E; [|reflexivity].
  rewrite (get_polys u (filled m ps)) by (apply filled_coherent; [apply C|exact E]). change (CalcBoundaryPolygonSet u (filled m ps)) with (CalcBoundaryPolygonSet u m). rewrite E.
  rewrite fold_vsum. cbv zeta. unfold cog_sum. cbn [vx vy vz]. f_equal. f_equal. apply vec_eq; cbn [vx vy vz]; ring.
Qed.

(** ** Operations keep the cache and the face data coherent *)
Lemma update_coherent u m : coherent u (UpdateAllProperties m). Proof. split; [reflexivity|left; reflexivity]. Qed.
Lemma query_coherent u m ps : coherent u m -> CalcBoundaryPolygonSet u m = Some ps -> coherent u (filled m ps).
Proof. intros [F _] E. apply filled_coherent; auto. Qed.
Lemma step_coherent u o m m' : coherent u m -> mesh_step u o m = Some m' -> coherent u m'.
Proof.
  intros C H. destruct o; cbn [mesh_step] in H; try (injection H as <-; apply update_coherent).
  - rewrite get_polys in H by exact C. destruct (CalcBoundaryPolygonSet u m) eqn:E; [|discriminate]. injection H as <-. apply query_coherent; auto.
  - rewrite volume_value in H by exact C. destruct (CalcBoundaryPolygonSet u m) eqn:E; [|discriminate]. injection H as <-. apply query_coherent; auto.
  - rewrite area_value in H by exact C. destruct (CalcBoundaryPolygonSet u m) eqn:E; [|discriminate]. injection H as <-. apply query_coherent; auto.
  - rewrite cog_value in H by exact C. destruct (CalcBoundaryPolygonSet u m) eqn:E; [|discriminate]. injection H as <-. apply query_coherent; auto.
Qed.
Lemma run_coherent u ops : forall m m', coherent u m -> mesh_run u ops m = Some m' -> coherent u m'.
Proof.
  induction ops as [|o ops IH]; cbn; intros m m' C H; [injection H as <-; exact C|].
  destruct (mesh_step u o m) as [m1|] eqn:E; [|discriminate]. eapply IH; [|exact H]. eapply step_coherent; eassumption.
Qed.
Lemma empty_coherent u : coherent u empty_mesh. Proof. split; [reflexivity|left; reflexivity]. Qed.
Lemma load_empty vs fs : MLoad empty_mesh vs fs = UpdateAllProperties (Mesh vs fs nil None).
Proof.
  unfold MLoad, empty_mesh. cbn [verts faces fdata polys length app].
  replace (map (fun t => (0 + fst (fst t), 0 + snd (fst t), 0 + snd t)%nat) fs) with fs; [reflexivity|].
  rewrite <- (map_id fs) at 1. apply map_ext. intros [[a b] c]; reflexivity.
Qed.
(** Queries of a mesh with a history agree with those of a mesh just loaded *)
Definition same_value {A B} (x : option (A * B)) (y : option (A * B)) : Prop := option_map fst x = option_map fst y.
Lemma history u m : coherent u m -> let m0 := MLoad empty_mesh (verts m) (faces m) in
  option_map fst (GetVolume u m) = option_map fst (GetVolume u m0) /\ option_map fst (GetCOG u m) = option_map fst (GetCOG u m0) /\
  option_map fst (GetArea u m) = option_map fst (GetArea u m0) /\ option_map fst (GetBoundaryPolygonSet u m) = option_map fst (GetBoundaryPolygonSet u m0) /\
  (forall i t, GetMeshedSurfaceIntegralN m i t = GetMeshedSurfaceIntegralN m0 i t).
Proof.
  intros C. cbv zeta. rewrite load_empty. pose proof (update_coherent u (Mesh (verts m) (faces m) nil None)) as C0.
  set (m0 := UpdateAllProperties _) in *.
  assert (E0 : CalcBoundaryPolygonSet u m0 = CalcBoundaryPolygonSet u m) by reflexivity.
  assert (EF : fdata m = fdata m0) by (rewrite (proj1 C); reflexivity).
  assert (EI : forall i t, GetMeshedSurfaceIntegralN m i t = GetMeshedSurfaceIntegralN m0 i t) by (intros; unfold GetMeshedSurfaceIntegralN; rewrite EF; reflexivity).
  rewrite !volume_value, !cog_value, !area_value, !get_polys, E0 by assumption.
  destruct (CalcBoundaryPolygonSet u m); cbn [option_map fst]; [|auto 10]. unfold cog_sum. rewrite !EI. unfold GetMeshedSurfaceArea. rewrite EF. auto 10.
Qed.

(** ** Volume and centre of gravity *)
Lemma tflux_div s i t k f : div_pair i t k f -> watertight s -> sum (map (tflux i t) s) = k * volume_integral f s.
Proof. intros D W. apply divergence; assumption. Qed.
Lemma right_Z : right_integrand POLY_Z. Proof. repeat split; discriminate. Qed.
Lemma right_X2 : right_integrand POLY_X2. Proof. repeat split; discriminate. Qed.
Lemma right_Y2 : right_integrand POLY_Y2. Proof. repeat split; discriminate. Qed.
Lemma right_Z2 : right_integrand POLY_Z2. Proof. repeat split; discriminate. Qed.
Lemma calc_polys u m ps : oriented (faces m) -> simple_border (faces m) -> CalcBoundaryPolygonSet u m = Some ps ->
  exists ls, Forall2 (fun l p => FrPolygon_make (u l) l NWU = Some p) ls ps /\ List.Forall closed_list ls /\ watertight (mesh_soup m ++ caps ls) /\ map pg_verts ps = ls.
Proof.
  intros O S1 H. unfold CalcBoundaryPolygonSet in H. destruct (loops_exist (verts m) (faces m) O S1) as (ls & A1 & A2 & A3). rewrite A1 in H.
  apply make_all_spec in H. exists (map (loop_points (verts m)) ls). repeat split; auto. clear -H. induction H; [reflexivity|]. cbn. rewrite IHForall2. f_equal. eapply make_verts; eassumption.
Qed.
Section Capped.
Variables (u : list vec -> junk) (m : mesh) (ps : list polygon).
Hypotheses (C : coherent u m) (O : consistent (faces m)) (S1 : simple_borders (faces m)) (E : CalcBoundaryPolygonSet u m = Some ps)
  (CO : List.Forall coplanar (map pg_verts ps)).
Let s := mesh_soup m ++ caps (map pg_verts ps).
Lemma capped_facts : watertight s /\ GetMeshedSurfaceIntegralN m 2 POLY_Z + sum (map polygon_volume ps) = volume s /\
  cog_sum m ps 0 POLY_X2 = 2 * volume_integral vx s /\ cog_sum m ps 1 POLY_Y2 = 2 * volume_integral vy s /\ cog_sum m ps 2 POLY_Z2 = 2 * volume_integral vz s /\
  sum (map Pg_GetArea ps) = sum (map (fun l => sqrt (dot3 (vector_area l) (vector_area l))) (map pg_verts ps)).
Proof.
  destruct (calc_polys u m ps (consistent_oriented _ O) (simple_simple _ O S1) E) as (ls & A1 & A2 & A3 & A4). unfold s. rewrite A4 in *.
  destruct (capped_flux u ls ps A1 A2 CO) as (_ & V1 & V2 & V3).
  assert (CS : forall i t k f, right_integrand t -> div_pair i t k f -> sum (map (fun p => component i (polygon_cog p)) ps) = sum (map (tflux i t) (caps ls)) ->
     cog_sum m ps i t = k * volume_integral f (mesh_soup m ++ caps ls)).
  { intros i t k f R1 D Q. unfold cog_sum. rewrite Q, (meshed_flux m i t (proj1 C) R1), <- sum_app, <- map_app. apply tflux_div; assumption. }
  repeat apply conj.
  - exact A3.
  - rewrite V1, (meshed_flux m 2 POLY_Z (proj1 C) right_Z), <- sum_app, <- map_app. rewrite (tflux_div _ 2 POLY_Z 1 (fun _ => 1) div_Z A3). unfold volume. ring.
  - apply (CS 0%nat POLY_X2 2 vx right_X2 div_X2). apply V3. auto.
  - apply (CS 1%nat POLY_Y2 2 vy right_Y2 div_Y2). apply V3. auto.
  - apply (CS 2%nat POLY_Z2 2 vz right_Z2 div_Z2). apply V3. auto.
  - exact V2.
Qed.
Lemma capped_volume : GetVolume u m = Some (volume s, filled m ps).
Proof. rewrite volume_value, E by exact C. destruct capped_facts as (_ & -> & _). reflexivity. Qed.
Lemma capped_cog : volume s <> 0 -> GetCOG u m = Some (centroid s, filled m ps).
Proof.
  intros NZ. rewrite cog_value, E by exact C. destruct capped_facts as (_ & -> & -> & -> & -> & _). cbv zeta. f_equal. f_equal.
  unfold centroid. apply vec_eq; cbn [vx vy vz scal3]; field; exact NZ.
Qed.
Lemma face_area_sum : GetMeshedSurfaceArea m = sum (map triangle_area (mesh_soup m)).
Proof.
  unfold GetMeshedSurfaceArea. rewrite Rsum_sum, (proj1 C). unfold mesh_soup, soup_of. rewrite !map_map. apply sum_ext. intros [[a b] c] _. reflexivity.
Qed.
Lemma capped_area : GetArea u m = Some (sum (map triangle_area (mesh_soup m)) + sum (map (fun l => sqrt (dot3 (vector_area l) (vector_area l))) (map pg_verts ps)), filled m ps).
Proof. rewrite area_value, E, face_area_sum by exact C. destruct capped_facts as (_ & _ & _ & _ & _ & ->). reflexivity. Qed.
End Capped.
Lemma closed_calc u m : IsWatertight m = true -> CalcBoundaryPolygonSet u m = Some nil.
Proof.
  intros W. unfold CalcBoundaryPolygonSet. unfold IsWatertight in W. apply negb_true_iff in W.
  rewrite (watertight_edges (faces m) W). reflexivity.
Qed.
Lemma closed_borders m : IsWatertight m = true -> simple_borders (faces m).
Proof. intros W a b c [H K]. exfalso. apply K. cbn in H. apply (proj1 (watertight_iff m) W b a H). Qed.
Lemma closed_values u m : coherent u m -> consistent (faces m) -> IsWatertight m = true ->
  watertight (mesh_soup m) /\ (exists m1, GetVolume u m = Some (volume (mesh_soup m), m1)) /\
  (exists m2, GetArea u m = Some (sum (map triangle_area (mesh_soup m)), m2)) /\
  (volume (mesh_soup m) <> 0 -> exists m3, GetCOG u m = Some (centroid (mesh_soup m), m3)).
Proof.
  intros C O W. pose proof (closed_calc u m W) as E. pose proof (closed_borders m W) as S1.
  assert (CO : List.Forall coplanar (map pg_verts nil)) by constructor.
  pose proof (capped_facts u m nil C O S1 E CO) as (F1 & _). pose proof (capped_volume u m nil C O S1 E CO) as V1. pose proof (capped_cog u m nil C O S1 E CO) as V2. pose proof (capped_area u m nil C O S1 E CO) as V3.
  change (caps (map pg_verts nil)) with (@nil triangle) in *. rewrite app_nil_r in *. repeat split; eauto.
  eexists. rewrite V3. cbn [map]. unfold sum at 2. cbn [fold_right]. rewrite Rplus_0_r. reflexivity.
Qed.

(** ** Inertia tensors of closed meshes *)
Lemma closed_inertia u m rho : coherent u m -> consistent (faces m) -> IsWatertight m = true -> volume (mesh_soup m) <> 0 ->
  let I f := rho * volume_integral f (mesh_soup m) in
  GetPlainInertiaTensor u m rho = Some (I6 (rho * volume (mesh_soup m))
    (I (fun p => vy p * vy p) + I (fun p => vz p * vz p)) (I (fun p => vx p * vx p) + I (fun p => vz p * vz p)) (I (fun p => vx p * vx p) + I (fun p => vy p * vy p))
    (- I (fun p => vx p * vy p)) (- I (fun p => vz p * vx p)) (- I (fun p => vy p * vz p)) (centroid (mesh_soup m))).
Proof.
  intros C O W NZ. cbv zeta. pose proof (closed_calc u m W) as E. pose proof (closed_borders m W) as S1.
  assert (CO : List.Forall coplanar (map pg_verts nil)) by constructor.
  pose proof (closed_values u m C O W) as (F1 & _).
  pose proof (capped_volume u m nil C O S1 E CO) as V1.
  assert (C1 : coherent u (filled m nil)) by (apply filled_coherent; [apply C|exact E]).
  pose proof (capped_cog u (filled m nil) nil C1 O S1 E CO) as V2.
  change (caps (map pg_verts nil)) with (@nil triangle) in *. rewrite app_nil_r in *. change (mesh_soup (filled m nil)) with (mesh_soup m) in V2.
  specialize (V2 NZ). unfold GetPlainInertiaTensor. rewrite V1, V2.
  rewrite (get_polys u) by (apply filled_coherent; [apply C|exact E]). change (CalcBoundaryPolygonSet u (filled (filled m nil) nil)) with (CalcBoundaryPolygonSet u m). rewrite E.
  assert (D : forall i t k f, right_integrand t -> div_pair i t k f -> GetMeshedSurfaceIntegralN m i t = k * volume_integral f (mesh_soup m)).
  { intros i t k f R1 DP. rewrite (meshed_flux m i t (proj1 C) R1). apply tflux_div; assumption. }
  rewrite (D 0%nat POLY_X3 3 _ ltac:(repeat split; discriminate) div_X3), (D 1%nat POLY_Y3 3 _ ltac:(repeat split; discriminate) div_Y3), (D 2%nat POLY_Z3 3 _ ltac:(repeat split; discriminate) div_Z3).
  rewrite (D 0%nat POLY_X2Y 2 _ ltac:(repeat split; discriminate) div_X2Y), (D 1%nat POLY_Y2Z 2 _ ltac:(repeat split; discriminate) div_Y2Z), (D 2%nat POLY_Z2X 2 _ ltac:(repeat split; discriminate) div_Z2X).
  f_equal. f_equal; field.
Qed.
