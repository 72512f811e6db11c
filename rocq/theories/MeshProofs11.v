(** Polygons that are accepted, counterexamples, bounding boxes (C30-C33, C50-C52). *)
From Coq Require Import Reals List Lra Lia Permutation Arith Bool.
From Coquelicot Require Import Coquelicot.
From Verif Require Import GeoModel GeoSpec GeoProofs GeoProofs2 GeoProofs3 GeoProofs4 MeshModel MeshSpec MeshProofs MeshProofs2 MeshProofs3 MeshProofs4 MeshProofs5 MeshProofs6 MeshProofs7 MeshProofs8 MeshProofs9 MeshProofs10.
Import ListNotations.
Open Scope R_scope.

(** Every closed coplanar list of points with a non-zero vector area makes a polygon *)
Lemma polygon_total u l : closed_list l -> coplanar l -> vector_area l <> origin -> exists p, FrPolygon_make u l NWU = Some p.
Proof.
  intros C CP NZ. unfold FrPolygon_make. replace (map (swap_if NWU) l) with l by (rewrite <- (map_id l) at 1; apply map_ext; reflexivity).
  unfold FrPlane_cloud. destruct l as [|a l]; [destruct C|]. set (vs := a :: l) in *. cbv zeta. cbn [swap_if IsNED].
  set (G := vscale (/ INR (length vs)) (vsum vs)) in *. rewrite normal_sum_nsum, nsum_closed by exact C.
  set (A := vector_area vs) in *.
  assert (PA : 0 < dot3 A A). { destruct A as [x y z]. unfold dot3; cbn [vx vy vz]. destruct (Req_dec x 0), (Req_dec y 0), (Req_dec z 0); subst; try nra. exfalso; apply NZ; reflexivity. }
  set (w := plus3 vzero (scal3 2 A)) in *.
  assert (W : dot3 w w = 2 * 2 * dot3 A A) by (unfold w; destruct A; geo; ring).
  destruct (normalize_unit3 w ltac:(lra)) as [U1 U2]. set (n := vnormalize w) in *.
  unfold with_frame. destruct (build_frame G n U1) as (f & EB & _). rewrite EB.
  assert (AP : all_planar (Pl G n f) vs = true).
  { unfold all_planar. apply forallb_forall. intros q Hq. unfold GetDistanceToPoint, GetSignedDistanceToPoint, SignedDistanceTo. cbn [pl_origin pl_normal swap_if IsNED].
    set (k := sqrt (dot3 w w)) in *. assert (K0 : 0 < k) by (unfold k; apply sqrt_lt_R0; lra).
    assert (DN : forall r, k * dot3 r n = 2 * dot3 r A).
    { intros r. transitivity (dot3 r (scal3 k n)); [generalize n; intros v; destruct r, v; geo; ring|]. rewrite <- U2. unfold w. destruct r, A; geo; ring. }
    assert (CO : forall r, In r vs -> dot3 r n = dot3 q n).
    { intros r Hr. apply (Rmult_eq_reg_l k); [|lra]. rewrite !DN. unfold A. rewrite (coplanar_area vs r q C CP Hr Hq). reflexivity. }
    assert (GN : dot3 G n = dot3 q n).
    { unfold G. replace (dot3 (vscale (/ INR (length vs)) (vsum vs)) n) with (/ INR (length vs) * dot3 (vsum vs) n) by (generalize n (vsum vs); intros v v'; destruct v, v'; geo; ring).
      rewrite (vsum_dot vs n (dot3 q n) CO). field. apply not_0_INR. discriminate. }
    replace (vdot (vsub q G) n) with (dot3 q n - dot3 G n) by (generalize n G; intros v v'; destruct q, v, v'; geo; ring). rewrite GN. replace (dot3 q n - dot3 q n) with 0 by ring. rewrite Rabs_R0.
    destruct (Rlt_dec 0 (1 / 10 ^ 4)); [reflexivity|lra]. }
  rewrite AP. cbn [map]. unfold ComputeSurfacePolynomialIntegrals. eexists; reflexivity.
Qed.

(** ** Wrong mixed integrals *)
Lemma unit_norm a b c : a * a + b * b + c * c = 1 -> vnorm (V a b c) = 1.
Proof. intros H. unfold vnorm, vdot; cbn [vx vy vz]. rewrite H. apply sqrt_1. Qed.
Lemma mixed_wrong : forall t, ~ right_integrand t -> exists p0 p1 p2, GetSurfaceIntegral (CalcFacePolynomialIntegrals p0 p1 p2) t <> surface_integral (mono t) p0 p1 p2.
Proof.
  intros t NR. assert (T : t = POLY_YZ \/ t = POLY_XZ \/ t = POLY_XY).
  { destruct t; auto; exfalso; apply NR; repeat split; discriminate. }
  destruct T as [->|[->| ->]].
  - exists (V 0 0 0), (V 0 1 0), (V 0 0 1). unfold surface_integral. rewrite over_mono. unfold omono, moment3; cbn [fac1 fac2 fac3 vx vy vz].
    replace (dot3 (area2 (V 0 0 0) (V 0 1 0) (V 0 0 1)) (area2 (V 0 0 0) (V 0 1 0) (V 0 0 1))) with 1 by (unfold area2; geo; ring). rewrite sqrt_1.
    unfold CalcFacePolynomialIntegrals. cbn [GetSurfaceIntegral iyz vx vy vz vadd]. unfold Rdiv. intros H. ring_simplify in H. lra.
  - exists (V 0 0 0), (V 1 0 0), (V 0 0 1). unfold surface_integral. rewrite over_mono. unfold omono, moment3; cbn [fac1 fac2 fac3 vx vy vz].
    replace (dot3 (area2 (V 0 0 0) (V 1 0 0) (V 0 0 1)) (area2 (V 0 0 0) (V 1 0 0) (V 0 0 1))) with 1 by (unfold area2; geo; ring). rewrite sqrt_1.
    unfold CalcFacePolynomialIntegrals. cbn [GetSurfaceIntegral ixz vx vy vz vadd]. unfold Rdiv. intros H. ring_simplify in H. lra.
  - exists (V 0 0 0), (V 1 0 0), (V 0 1 0). unfold surface_integral. rewrite over_mono. unfold omono, moment3; cbn [fac1 fac2 fac3 vx vy vz].
    replace (dot3 (area2 (V 0 0 0) (V 1 0 0) (V 0 1 0)) (area2 (V 0 0 0) (V 1 0 0) (V 0 1 0))) with 1 by (unfold area2; geo; ring). rewrite sqrt_1.
    unfold CalcFacePolynomialIntegrals. cbn [GetSurfaceIntegral ixy vx vy vz vadd]. unfold Rdiv. intros H. ring_simplify in H. lra.
Qed.

(** ** Bounding box *)
Lemma bbox_fold l : forall b0, let b := fold_left (fun b q => BB (Rmin (xmin b) (vx q)) (Rmax (xmax b) (vx q)) (Rmin (ymin b) (vy q)) (Rmax (ymax b) (vy q)) (Rmin (zmin b) (vz q)) (Rmax (zmax b) (vz q))) l b0 in
  (forall q, In q l -> xmin b <= vx q <= xmax b /\ ymin b <= vy q <= ymax b /\ zmin b <= vz q <= zmax b) /\
  (xmin b <= xmin b0 /\ xmax b0 <= xmax b /\ ymin b <= ymin b0 /\ ymax b0 <= ymax b /\ zmin b <= zmin b0 /\ zmax b0 <= zmax b) /\
  ((xmin b = xmin b0 \/ exists q, In q l /\ vx q = xmin b) /\ (xmax b = xmax b0 \/ exists q, In q l /\ vx q = xmax b) /\
   (ymin b = ymin b0 \/ exists q, In q l /\ vy q = ymin b) /\ (ymax b = ymax b0 \/ exists q, In q l /\ vy q = ymax b) /\
   (zmin b = zmin b0 \/ exists q, In q l /\ vz q = zmin b) /\ (zmax b = zmax b0 \/ exists q, In q l /\ vz q = zmax b)).
Proof.
  induction l as [|p l IH]; intros b0; cbv zeta.
  { cbn. repeat split; auto; try lra; intros q []. }
  cbn [fold_left]. set (b1 := BB _ _ _ _ _ _). specialize (IH b1). cbv zeta in IH. set (b := fold_left _ l b1) in *. clearbody b.
  destruct IH as (I1 & I2 & I3). cbn [b1 xmin xmax ymin ymax zmin zmax] in I2.
  pose proof (Rmin_l (xmin b0) (vx p)). pose proof (Rmin_r (xmin b0) (vx p)). pose proof (Rmax_l (xmax b0) (vx p)). pose proof (Rmax_r (xmax b0) (vx p)).
  pose proof (Rmin_l (ymin b0) (vy p)). pose proof (Rmin_r (ymin b0) (vy p)). pose proof (Rmax_l (ymax b0) (vy p)). pose proof (Rmax_r (ymax b0) (vy p)).
  pose proof (Rmin_l (zmin b0) (vz p)). pose proof (Rmin_r (zmin b0) (vz p)). pose proof (Rmax_l (zmax b0) (vz p)). pose proof (Rmax_r (zmax b0) (vz p)).
  split; [|split].
  - intros q [<-|Hq]; [repeat split; lra|apply I1, Hq].
  - repeat split; lra.
  - assert (MN : forall (g : vec -> R) v w, v = Rmin w (g p) \/ (exists q, In q l /\ g q = v) -> v = w \/ exists q, In q (p :: l) /\ g q = v).
    { intros g v w [E|(q & Q1 & Q2)]; [|right; exists q; cbn; auto]. unfold Rmin in E. destruct (Rle_dec w (g p)); [left; exact E|right; exists p; cbn; auto]. }
    assert (MX : forall (g : vec -> R) v w, v = Rmax w (g p) \/ (exists q, In q l /\ g q = v) -> v = w \/ exists q, In q (p :: l) /\ g q = v).
    { intros g v w [E|(q & Q1 & Q2)]; [|right; exists q; cbn; auto]. unfold Rmax in E. destruct (Rle_dec w (g p)); [right; exists p; cbn; auto|left; exact E]. }
    destruct I3 as (J1 & J2 & J3 & J4 & J5 & J6). cbn [b1 xmin xmax ymin ymax zmin zmax] in *. repeat split; auto.
Qed.
Lemma bbox m : verts m <> nil -> let b := GetBoundingBox m in
  (forall q, In q (verts m) -> xmin b <= vx q <= xmax b /\ ymin b <= vy q <= ymax b /\ zmin b <= vz q <= zmax b) /\
  (exists q, In q (verts m) /\ vx q = xmin b) /\ (exists q, In q (verts m) /\ vx q = xmax b) /\ (exists q, In q (verts m) /\ vy q = ymin b) /\
  (exists q, In q (verts m) /\ vy q = ymax b) /\ (exists q, In q (verts m) /\ vz q = zmin b) /\ (exists q, In q (verts m) /\ vz q = zmax b).
Proof.
  intros NE. unfold GetBoundingBox. destruct (verts m) as [|p l] eqn:E; [congruence|]. clear NE. cbv zeta.
  pose proof (bbox_fold (p :: l) (BB (vx p) (vx p) (vy p) (vy p) (vz p) (vz p))) as (A & _ & B). cbn [xmin xmax ymin ymax zmin zmax] in B. split; [exact A|].
  set (b := fold_left _ _ _) in *. clearbody b.
  assert (G : forall (g : vec -> R) v, v = g p \/ (exists q, In q (p :: l) /\ g q = v) -> exists q, In q (p :: l) /\ g q = v) by (intros g v [->|H]; [exists p; cbn; auto|exact H]).
  destruct B as (B1 & B2 & B3 & B4 & B5 & B6). repeat split; apply G; assumption.
Qed.

(** ** Hydrostatic torque *)
Lemma torque_sum l : forall t, fold_left (fun t (d : vec * fints) =>
      let xz := ixz (snd d) in let yz := iyz (snd d) in let zz := iz2 (snd d) in let n := fst d in
      V (vx t + (yz * vz n - zz * vy n)) (vy t + (zz * vx n - xz * vz n)) (vz t + (xz * vy n - yz * vx n))) l t =
  plus3 t (sum3 (map (fun d => V (vz (fst d) * iyz (snd d) - vy (fst d) * iz2 (snd d)) (vx (fst d) * iz2 (snd d) - vz (fst d) * ixz (snd d)) (vy (fst d) * ixz (snd d) - vx (fst d) * iyz (snd d))) l)).
Proof.
  unfold sum3. induction l as [|d l IH]; intros t; cbn [fold_left map fold_right]; [destruct t; apply vec_eq; geo; ring|]. cbv zeta in *. rewrite IH.
  generalize (fold_right plus3 origin (map (fun d => V (vz (fst d) * iyz (snd d) - vy (fst d) * iz2 (snd d)) (vx (fst d) * iz2 (snd d) - vz (fst d) * ixz (snd d)) (vy (fst d) * ixz (snd d) - vx (fst d) * iyz (snd d))) l)).
  intros v. destruct t as [t1 t2 t3], v as [v1 v2 v3], d as [[d1 d2 d3] F0]; apply vec_eq; cbn [fst snd vx vy vz plus3 iyz ixz iz2]; ring.
Qed.
(** normal times a stored integral, without the square root *)
Lemma normal_scaled p0 p1 p2 i k : component i (face_normal p0 p1 p2) * (vnorm (vcross (vsub p1 p0) (vsub p2 p0)) * k) = component i (area2 p0 p1 p2) * k.
Proof.
  change (vnorm (vcross (vsub p1 p0) (vsub p2 p0))) with (sqrt (dot3 (area2 p0 p1 p2) (area2 p0 p1 p2))). rewrite <- (normal_area p0 p1 p2) at 3.
  destruct i as [|[|i]]; cbn [component scal3 vx vy vz]; ring.
Qed.
Definition wrong_mix (a b : vec -> R) (p0 p1 p2 : vec) : R :=
  (6 * a p0 * b p0 + 3 * (a p1 * b p1 + a p2 * b p2) - a p0 * (b p0 + b p1 + b p2) - b p0 * (a p0 + a p1 + a p2)) / 12.
Definition square_mix (p0 p1 p2 : vec) : R := (vz p0 * vz p0 + vz p1 * (vz p0 + vz p1) + vz p2 * (vz p0 + vz p1 + vz p2)) / 12.
Definition torque_term (vs : list vec) (t : tri) : vec :=
  let p0 := corner0 vs t in let p1 := corner1 vs t in let p2 := corner2 vs t in let A := area2 p0 p1 p2 in
  let xz := wrong_mix vx vz p0 p1 p2 in let yz := wrong_mix vy vz p0 p1 p2 in let zz := square_mix p0 p1 p2 in
  V (vz A * yz - vy A * zz) (vx A * zz - vz A * xz) (vy A * xz - vx A * yz).
Lemma torque_terms m rho g : fresh m -> GetHydrostaticTorqueInWorld m rho g NWU = scal3 (g * rho) (sum3 (map (torque_term (verts m)) (faces m))).
Proof.
  intros F. unfold GetHydrostaticTorqueInWorld. rewrite torque_sum, F, map_map. cbn [swap_if IsNED].
  replace (map _ (faces m)) with (map (torque_term (verts m)) (faces m)).
  - generalize (sum3 (map (torque_term (verts m)) (faces m))). intros [a b c]. apply vec_eq; geo; ring.
  - apply map_ext. intros t. unfold torque_term, face_data. cbn [fst snd]. set (p0 := corner0 (verts m) t). set (p1 := corner1 (verts m) t). set (p2 := corner2 (verts m) t).
    assert (X : forall i k, component i (face_normal p0 p1 p2) * (vnorm (vcross (vsub p1 p0) (vsub p2 p0)) * k) = component i (area2 p0 p1 p2) * k) by (intros; apply normal_scaled).
    pose proof (X 0%nat) as X0. pose proof (X 1%nat) as X1. pose proof (X 2%nat) as X2. cbn [component] in X0, X1, X2.
    unfold CalcFacePolynomialIntegrals. cbn [iyz ixz iz2]. cbv zeta. set (d := vnorm (vcross (vsub p1 p0) (vsub p2 p0))) in *. set (N := face_normal p0 p1 p2) in *. set (A := area2 p0 p1 p2) in *.
    unfold wrong_mix, square_mix. cbn [vadd vmulc vx vy vz]. clearbody d N A p0 p1 p2. unfold Rdiv in *.
    f_equal; rewrite !(Rmult_assoc d); rewrite ?X0, ?X1, ?X2; ring.
Qed.
