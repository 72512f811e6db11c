(** Proofs for C36, C56 and C57: shifted moments, repeated computation, equilibrium loops. *)
From Coq Require Import Reals List Lra Lia Permutation Arith Bool.
From Coquelicot Require Import Coquelicot.
From Verif Require Import GeoModel GeoSpec GeoProofs GeoProofs2 GeoProofs3 GeoProofs4 BodyModel BodySpec BodyProofs BodyProofs2 BodyProofs3 MeshModel MeshSpec MeshProofs MeshProofs2 MeshProofs3 MeshProofs4 MeshProofs5 MeshProofs6 MeshProofs7 MeshProofs8 MeshProofs9 MeshProofs10 MeshProofs11 HydModel HydSpec HydProofs HydProofs2.
Import ListNotations.
Open Scope R_scope.

Lemma wp_fold (f : vec -> R) (G : list vec -> R) ls : (forall l, fan f origin l = G l) -> waterplane f ls = sum (map G ls).
Proof. intros H. unfold waterplane. apply sum_ext. intros l _. apply H. Qed.
Lemma wp_one ls : waterplane (fun _ => 1) ls = waterplane (mono POLY_1) ls. Proof. reflexivity. Qed.
Lemma wp_lin k a b ls : waterplane (fun P => k + (a * vx P + b * vy P)) ls = k * waterplane (mono POLY_1) ls + (a * waterplane (mono POLY_X) ls + b * waterplane (mono POLY_Y) ls).
Proof. unfold waterplane. rewrite <- !sum_scal, <- !sum_plus. apply sum_ext. intros l _. apply fan_lin. Qed.
Lemma wp_ext f g ls : (forall p, f p = g p) -> waterplane f ls = waterplane g ls.
Proof. intros H. unfold waterplane. apply sum_ext. intros l _. apply fan_ext, H. Qed.
Lemma wp_x r ls : waterplane (fun p => vx p - r) ls = waterplane (mono POLY_X) ls - r * waterplane (mono POLY_1) ls.
Proof. rewrite (wp_ext _ (fun P => - r + (1 * vx P + 0 * vy P))) by (intros; ring). rewrite wp_lin. ring. Qed.
Lemma wp_y r ls : waterplane (fun p => vy p - r) ls = waterplane (mono POLY_Y) ls - r * waterplane (mono POLY_1) ls.
Proof. rewrite (wp_ext _ (fun P => - r + (0 * vx P + 1 * vy P))) by (intros; ring). rewrite wp_lin. ring. Qed.
Lemma wp_quad k a b ls : waterplane (fun P => (k + (a * vx P + b * vy P)) * (k + (a * vx P + b * vy P))) ls =
  a * a * waterplane (mono POLY_X2) ls + b * b * waterplane (mono POLY_Y2) ls + k * k * waterplane (mono POLY_1) ls + 2 * a * b * waterplane (mono POLY_XY) ls
  + 2 * k * (a * waterplane (mono POLY_X) ls + b * waterplane (mono POLY_Y) ls).
Proof. unfold waterplane, sum. induction ls as [|l ls IH]; cbn [map fold_right]; [ring|]. rewrite IH, fan_quad. ring. Qed.
Lemma wp_x2 r ls : waterplane (fun p => (vx p - r) * (vx p - r)) ls = waterplane (mono POLY_X2) ls - 2 * r * waterplane (mono POLY_X) ls + r * r * waterplane (mono POLY_1) ls.
Proof. rewrite (wp_ext _ (fun P => (- r + (1 * vx P + 0 * vy P)) * (- r + (1 * vx P + 0 * vy P)))) by (intros; ring). rewrite wp_quad. ring. Qed.
Lemma wp_y2 r ls : waterplane (fun p => (vy p - r) * (vy p - r)) ls = waterplane (mono POLY_Y2) ls - 2 * r * waterplane (mono POLY_Y) ls + r * r * waterplane (mono POLY_1) ls.
Proof. rewrite (wp_ext _ (fun P => (- r + (0 * vx P + 1 * vy P)) * (- r + (0 * vx P + 1 * vy P)))) by (intros; ring). rewrite wp_quad. ring. Qed.
Lemma wp_xy a b ls : waterplane (fun p => (vx p - a) * (vy p - b)) ls = waterplane (mono POLY_XY) ls - b * waterplane (mono POLY_X) ls - a * waterplane (mono POLY_Y) ls + a * b * waterplane (mono POLY_1) ls.
Proof.
  assert (T : forall p q r, over_triangle (fun P => (vx P - a) * (vy P - b)) p q r = over_triangle (mono POLY_XY) p q r - b * over_triangle (mono POLY_X) p q r - a * over_triangle (mono POLY_Y) p q r + a * b * over_triangle (mono POLY_1) p q r).
  { intros p q r. rewrite !over_mono. unfold over_triangle.
    rewrite (simplex2 (vx p - a) (vx q - a) (vx r - a) (vy p - b) (vy q - b) (vy r - b) 1 1 1).
    - unfold omono, moment3; cbn [fac1 fac2 fac3]; field.
    - intros u v. unfold tri_point, aff; cbn [vx vy plus3 scal3 minus3]; ring. }
  assert (F : forall l, fan (fun P => (vx P - a) * (vy P - b)) origin l = fan (mono POLY_XY) origin l - b * fan (mono POLY_X) origin l - a * fan (mono POLY_Y) origin l + a * b * fan (mono POLY_1) origin l).
  { induction l as [|p l IH]; [cbn; ring|]. destruct l as [|q l]; [cbn; ring|].
    change (fan ?h origin (p :: q :: l)) with (cross2 origin p q * over_triangle h origin p q + fan h origin (q :: l)). rewrite IH, T. ring. }
  unfold waterplane, sum. induction ls as [|l ls IH]; cbn [map fold_right]; [ring|]. rewrite IH, F. ring.
Qed.

(** ** The computed properties, on any mesh *)
Section Value.
Variables (u : list vec -> junk) (p0 : polygon) (ps : list polygon) (vs : list vec) (fs : list tri).
Let qs := p0 :: ps.
Let ls := map pg_verts qs.
Let s := soup_of vs fs ++ caps ls.
Hypotheses (O : consistent fs) (S1 : simple_borders fs) (WL : List.Forall waterline ls) (NZ : volume s <> 0).
(** h is ready to be computed on the mesh of vertices vs and faces fs *)
Definition ready (h : hprops) : Prop := coherent u (h_mesh h) /\ verts (h_mesh h) = vs /\ faces (h_mesh h) = fs /\ CalcBoundaryPolygonSet u (h_mesh h) = Some qs /\ h_rho h * h_g h <> 0.
Definition stiff (rg gmt gml : R) (P : vec) : mat :=
  let K34 := rg * waterplane (fun p => vy p - vy P) ls in let K35 := - (rg * waterplane (fun p => vx p - vx P) ls) in
  let K45 := - (rg * waterplane (fun p => (vx p - vx P) * (vy p - vy P)) ls) in
  M (rg * waterplane (fun _ => 1) ls) K34 K35 K34 (rg * volume s * gmt) K45 K35 K45 (rg * volume s * gml).
Definition after (h : hprops) : hprops :=
  let W f := waterplane f ls in
  let A := W (fun _ => 1) in let P := h_red h in
  let rt := h_rt h + W (fun p => (vy p - vy P) * (vy p - vy P)) / volume s in
  let rl := h_rl h + W (fun p => (vx p - vx P) * (vx p - vx P)) / volume s in
  let z := vz (centroid s) - vz (h_cog h) in
  let bb := GetBoundingBox (h_mesh h) in
  HP (h_rho h) (h_g h) (filled (h_mesh h) qs) (volume s) (h_wparea h + A) (sum (map triangle_area (soup_of vs fs))) (V (W vx / A) (W vy / A) (zmax bb))
     (centroid s) (h_cog h) (Rabs (zmax bb - zmin bb)) (xmax bb - xmin bb) (ymax bb - ymin bb) (snd (xranges p0 ps) - fst (xranges p0 ps))
     rt rl (rt + z) (rl + z) (stiff (h_rho h * h_g h) (rt + z) (rl + z) P) P.
Lemma ready_value h : ready h -> ComputeProperties u h = Some (after h) /\ ready (after h).
Proof.
  intros (C & Ev & Ef & E & RG). split.
  - rewrite (compute_value u h p0 ps C) with (1 := eq_ind_r consistent O Ef) (2 := eq_ind_r simple_borders S1 Ef); auto.
    2:{ unfold mesh_soup. rewrite Ev, Ef. exact NZ. }
    unfold after, stiff, mesh_soup. rewrite Ev, Ef. fold qs ls. fold s. rewrite !wp_x, !wp_y, !wp_x2, !wp_y2, !wp_xy. change (waterplane (fun _ => 1) ls) with (waterplane (mono POLY_1) ls).
    change (waterplane vx ls) with (waterplane (mono POLY_X) ls). change (waterplane vy ls) with (waterplane (mono POLY_Y) ls).
    cbv zeta. f_equal. f_equal. apply mat_eq; cbn [m00 m01 m02 m10 m11 m12 m20 m21 m22]; ring.
  - unfold ready, after. cbn [h_mesh h_rho h_g]. split; [apply filled_coherent; [apply C|exact E]|]. auto 10.
Qed.
Lemma ready_times n : forall h, ready h -> exists h', ComputeTimes (S n) u h = Some h' /\ ready h' /\ h_rho h' = h_rho h /\ h_g h' = h_g h /\ h_cog h' = h_cog h /\ h_red h' = h_red h /\
  let W f := waterplane f ls in let P := h_red h in let k := INR (S n) in
  h_wparea h' = h_wparea h + k * W (fun _ => 1) /\
  h_rt h' = h_rt h + k * (W (fun p => (vy p - vy P) * (vy p - vy P)) / volume s) /\
  h_rl h' = h_rl h + k * (W (fun p => (vx p - vx P) * (vx p - vx P)) / volume s) /\
  h_K h' = stiff (h_rho h * h_g h) (h_rt h' + (vz (centroid s) - vz (h_cog h))) (h_rl h' + (vz (centroid s) - vz (h_cog h))) P.
Proof.
  induction n as [|n IH]; intros h RD; destruct (ready_value h RD) as [E RD'].
  - exists (after h). cbn [ComputeTimes]. rewrite E. cbv zeta. split; [reflexivity|]. split; [exact RD'|]. unfold after; cbn [h_rho h_g h_cog h_red h_wparea h_rt h_rl h_K INR].
    split; [reflexivity|]. split; [reflexivity|]. split; [reflexivity|]. split; [reflexivity|]. split; [ring|]. split; [ring|]. split; [ring|reflexivity].
  - destruct (IH (after h) RD') as (h' & E' & RD2 & A1 & A2 & A3 & A4 & B1 & B2 & B3 & B4). exists h'. split; [|split; [exact RD2|]].
    + change (ComputeTimes (S (S n)) u h) with (match ComputeProperties u h with Some h1 => ComputeTimes (S n) u h1 | None => None end). rewrite E. exact E'.
    + cbv zeta in *. rewrite A1, A2, A3, A4. unfold after in *; cbn [h_rho h_g h_cog h_red h_wparea h_rt h_rl h_K] in *. rewrite B1, B2, B3 in *. rewrite (S_INR (S n)). split; [reflexivity|]. split; [reflexivity|]. split; [reflexivity|]. split; [reflexivity|]. split; [ring|]. split; [ring|]. split; [ring|]. rewrite B4. reflexivity.
Qed.
End Value.
