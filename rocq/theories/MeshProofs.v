(** Integrals over triangles and tetrahedra (C30, C31, C32). *)
From Coq Require Import Reals List Lra Lia Permutation.
From Coquelicot Require Import Coquelicot.
From Verif Require Import GeoModel GeoSpec GeoProofs MeshModel MeshSpec.
Import ListNotations.
Open Scope R_scope.

Ltac req := match goal with |- @eq _ ?a ?b => change (@eq R a b) end.
(** Polynomials of degree five *)
Lemma RInt_poly c0 c1 c2 c3 c4 c5 b f :
  (forall x, f x = c0 + c1 * x + c2 * x ^ 2 + c3 * x ^ 3 + c4 * x ^ 4 + c5 * x ^ 5) ->
  RInt f 0 b = c0 * b + c1 / 2 * b ^ 2 + c2 / 3 * b ^ 3 + c3 / 4 * b ^ 4 + c4 / 5 * b ^ 5 + c5 / 6 * b ^ 6.
Proof.
  intros E. apply is_RInt_unique.
  set (F := fun x => c0 * x + c1 / 2 * x ^ 2 + c2 / 3 * x ^ 3 + c3 / 4 * x ^ 4 + c4 / 5 * x ^ 5 + c5 / 6 * x ^ 6).
  replace (c0 * b + c1 / 2 * b ^ 2 + c2 / 3 * b ^ 3 + c3 / 4 * b ^ 4 + c4 / 5 * b ^ 5 + c5 / 6 * b ^ 6) with (minus (F b) (F 0))
    by (unfold minus, plus, opp, F; cbn; field).
  apply (is_RInt_derive F f).
  - intros x _. unfold F. auto_derive; auto. rewrite E. field.
  - intros x _. apply (continuous_ext (fun x => c0 + c1 * x + c2 * x ^ 2 + c3 * x ^ 3 + c4 * x ^ 4 + c5 * x ^ 5)); [intros; symmetry; apply E|].
    apply (@ex_derive_continuous R_AbsRing R_NormedModule). auto_derive. auto.
Qed.

(** Product of three affine functions with vertex values (a_i, b_i, c_i) over the reference triangle *)
Definition aff (a b c u v : R) : R := a + (u * (b - a) + v * (c - a)).
Definition moment3 (a1 b1 c1 a2 b2 c2 a3 b3 c3 : R) : R :=
  ((a1 + b1 + c1) * (a2 + b2 + c2) * (a3 + b3 + c3)
   + (a1 + b1 + c1) * (a2 * a3 + b2 * b3 + c2 * c3)
   + (a2 + b2 + c2) * (a1 * a3 + b1 * b3 + c1 * c3)
   + (a3 + b3 + c3) * (a1 * a2 + b1 * b2 + c1 * c2)
   + 2 * (a1 * a2 * a3 + b1 * b2 * b3 + c1 * c2 * c3)) / 120.
Lemma simplex2 a1 b1 c1 a2 b2 c2 a3 b3 c3 f :
  (forall u v, f u v = aff a1 b1 c1 u v * aff a2 b2 c2 u v * aff a3 b3 c3 u v) ->
  RInt (fun u => RInt (fun v => f u v) 0 (1 - u)) 0 1 = moment3 a1 b1 c1 a2 b2 c2 a3 b3 c3.
Proof.
  intros E.
  set (p1 := fun u => a1 + u * (b1 - a1)). set (p2 := fun u => a2 + u * (b2 - a2)). set (p3 := fun u => a3 + u * (b3 - a3)).
  set (d1 := c1 - a1). set (d2 := c2 - a2). set (d3 := c3 - a3).
  set (A0 := fun u => p1 u * p2 u * p3 u).
  set (A1 := fun u => d1 * p2 u * p3 u + p1 u * d2 * p3 u + p1 u * p2 u * d3).
  set (A2 := fun u => d1 * d2 * p3 u + d1 * p2 u * d3 + p1 u * d2 * d3).
  set (A3 := d1 * d2 * d3).
  assert (IN : forall u, RInt (fun v => f u v) 0 (1 - u) = A0 u * (1 - u) + A1 u / 2 * (1 - u) ^ 2 + A2 u / 3 * (1 - u) ^ 3 + A3 / 4 * (1 - u) ^ 4).
  { intros u. rewrite (RInt_poly (A0 u) (A1 u) (A2 u) A3 0 0 (1 - u)); [req; field|]. intros v. rewrite E. unfold A0, A1, A2, A3, p1, p2, p3, d1, d2, d3, aff. ring. }
  rewrite (RInt_ext _ (fun u => A0 u * (1 - u) + A1 u / 2 * (1 - u) ^ 2 + A2 u / 3 * (1 - u) ^ 3 + A3 / 4 * (1 - u) ^ 4)) by (intros u _; apply IN).
  set (e1 := b1 - a1). set (e2 := b2 - a2). set (e3 := b3 - a3).
  (* coefficients in u of A0, A1, A2 *)
  set (x0 := a1 * a2 * a3). set (x1 := e1 * a2 * a3 + a1 * e2 * a3 + a1 * a2 * e3). set (x2 := e1 * e2 * a3 + e1 * a2 * e3 + a1 * e2 * e3). set (x3 := e1 * e2 * e3).
  set (y0 := d1 * a2 * a3 + a1 * d2 * a3 + a1 * a2 * d3).
  set (y1 := d1 * (e2 * a3 + a2 * e3) + d2 * (e1 * a3 + a1 * e3) + d3 * (e1 * a2 + a1 * e2)).
  set (y2 := d1 * e2 * e3 + e1 * d2 * e3 + e1 * e2 * d3).
  set (z0 := d1 * d2 * a3 + d1 * a2 * d3 + a1 * d2 * d3). set (z1 := d1 * d2 * e3 + d1 * e2 * d3 + e1 * d2 * d3).
  rewrite (RInt_poly (x0 + y0 / 2 + z0 / 3 + A3 / 4)
     (x1 - x0 + y1 / 2 - y0 + z1 / 3 - z0 - A3)
     (x2 - x1 + y2 / 2 - y1 + y0 / 2 + z0 - z1 + A3 * (3/2))
     (x3 - x2 - y2 + y1 / 2 - z0 / 3 + z1 - A3)
     (- x3 + y2 / 2 - z1 / 3 + A3 / 4) 0 1).
  - req. unfold x0, x1, x2, x3, y0, y1, y2, z0, z1, A3, d1, d2, d3, e1, e2, e3, moment3. field.
  - intros u. unfold A0, A1, A2, A3, p1, p2, p3, x0, x1, x2, x3, y0, y1, y2, z0, z1, A3, d1, d2, d3, e1, e2, e3. field.
Qed.
(** Product of two affine functions with vertex values (o, a, b, c) over the reference tetrahedron *)
Definition aff3 (o a b c u v w : R) : R := o + (u * (a - o) + (v * (b - o) + w * (c - o))).
Definition moment2t (o1 a1 b1 c1 o2 a2 b2 c2 : R) : R :=
  ((o1 + a1 + b1 + c1) * (o2 + a2 + b2 + c2) + (o1 * o2 + a1 * a2 + b1 * b2 + c1 * c2)) / 120.
Lemma simplex3 o1 a1 b1 c1 o2 a2 b2 c2 f :
  (forall u v w, f u v w = aff3 o1 a1 b1 c1 u v w * aff3 o2 a2 b2 c2 u v w) ->
  RInt (fun u => RInt (fun v => RInt (fun w => f u v w) 0 (1 - u - v)) 0 (1 - u)) 0 1 = moment2t o1 a1 b1 c1 o2 a2 b2 c2.
Proof.
  intros E.
  set (q1 := c1 - o1). set (q2 := c2 - o2).
  set (P1 := fun u v => o1 + (u * (a1 - o1) + v * (b1 - o1))). set (P2 := fun u v => o2 + (u * (a2 - o2) + v * (b2 - o2))).
  assert (IN : forall u v, RInt (fun w => f u v w) 0 (1 - u - v) =
     P1 u v * P2 u v * (1 - u - v) + (q1 * P2 u v + P1 u v * q2) / 2 * (1 - u - v) ^ 2 + q1 * q2 / 3 * (1 - u - v) ^ 3).
  { intros u v. rewrite (RInt_poly (P1 u v * P2 u v) (q1 * P2 u v + P1 u v * q2) (q1 * q2) 0 0 0 (1 - u - v)); [req; field|].
    intros w. rewrite E. unfold P1, P2, q1, q2, aff3. ring. }
  set (d1 := b1 - o1). set (d2 := b2 - o2). set (e1 := a1 - o1). set (e2 := a2 - o2).
  set (m1 := fun u => o1 + u * e1). set (m2 := fun u => o2 + u * e2).
  (* in v, with r = 1 - u *)
  assert (IN2 : forall u, RInt (fun v => RInt (fun w => f u v w) 0 (1 - u - v)) 0 (1 - u) =
     let r := 1 - u in
     let c0 := m1 u * m2 u * r + (q1 * m2 u + m1 u * q2) / 2 * r ^ 2 + q1 * q2 / 3 * r ^ 3 in
     let c1' := (d1 * m2 u + m1 u * d2) * r - m1 u * m2 u + (q1 * d2 + d1 * q2) / 2 * r ^ 2 - (q1 * m2 u + m1 u * q2) * r - q1 * q2 * r ^ 2 in
     let c2' := d1 * d2 * r - (d1 * m2 u + m1 u * d2) - (q1 * d2 + d1 * q2) * r + (q1 * m2 u + m1 u * q2) / 2 + q1 * q2 * r in
     let c3 := - d1 * d2 + (q1 * d2 + d1 * q2) / 2 - q1 * q2 / 3 in
     c0 * r + c1' / 2 * r ^ 2 + c2' / 3 * r ^ 3 + c3 / 4 * r ^ 4).
  { intros u. cbv zeta.
    rewrite (RInt_ext _ (fun v => P1 u v * P2 u v * (1 - u - v) + (q1 * P2 u v + P1 u v * q2) / 2 * (1 - u - v) ^ 2 + q1 * q2 / 3 * (1 - u - v) ^ 3)) by (intros v _; apply IN).
    rewrite (RInt_poly (m1 u * m2 u * (1 - u) + (q1 * m2 u + m1 u * q2) / 2 * (1 - u) ^ 2 + q1 * q2 / 3 * (1 - u) ^ 3)
       ((d1 * m2 u + m1 u * d2) * (1 - u) - m1 u * m2 u + (q1 * d2 + d1 * q2) / 2 * (1 - u) ^ 2 - (q1 * m2 u + m1 u * q2) * (1 - u) - q1 * q2 * (1 - u) ^ 2)
       (d1 * d2 * (1 - u) - (d1 * m2 u + m1 u * d2) - (q1 * d2 + d1 * q2) * (1 - u) + (q1 * m2 u + m1 u * q2) / 2 + q1 * q2 * (1 - u))
       (- d1 * d2 + (q1 * d2 + d1 * q2) / 2 - q1 * q2 / 3) 0 0 (1 - u)); [req; field|].
    intros v. unfold P1, P2, m1, m2. fold d1 d2 e1 e2. field. }
  rewrite (RInt_ext _ _ _ _ (fun u _ => IN2 u)). cbv zeta.
  clear IN IN2.
  set (w := d1 * d2). set (s := q1 * d2 + d1 * q2). set (t := q1 * q2).
  (* total = A r^2 m1 m2 + B1 r^3 (...) + C r^4 with the collected constants *)
  rewrite (RInt_ext _ (fun u => m1 u * m2 u * (1 - u) ^ 2 / 2 + ((q1 + d1) * m2 u + m1 u * (q2 + d2)) * (1 - u) ^ 3 / 6 + (2 * w + s + 2 * t) * (1 - u) ^ 4 / 24)).
  2:{ intros u _. req. unfold w, s, t. field. }
  set (k1 := q1 + d1). set (k2 := q2 + d2). set (Z := 2 * w + s + 2 * t).
  set (x0 := o1 * o2). set (x1 := e1 * o2 + o1 * e2). set (x2 := e1 * e2). set (y0 := k1 * o2 + o1 * k2). set (y1 := k1 * e2 + e1 * k2).
  rewrite (RInt_poly (x0 / 2 + y0 / 6 + Z / 24) (x1 / 2 - x0 + y1 / 6 - y0 / 2 - Z / 6) (x2 / 2 - x1 + x0 / 2 + y0 / 2 - y1 / 2 + Z / 4)
     (- x2 + x1 / 2 + y1 / 2 - y0 / 6 - Z / 6) (x2 / 2 - y1 / 6 + Z / 24) 0 1).
  - req. unfold x0, x1, x2, y0, y1, Z, k1, k2, w, s, t, q1, q2, d1, d2, e1, e2, moment2t. field.
  - intros u. unfold m1, m2, x0, x1, x2, y0, y1. field.
Qed.

(** ** Closed forms of the integrals over a triangle *)
(** mono as a product of three coordinate-like factors *)
Definition fac1 (t : poly) (p : vec) : R :=
  match t with POLY_1 => 1 | POLY_X | POLY_XZ | POLY_XY | POLY_X2 | POLY_X3 | POLY_X2Y => vx p
  | POLY_Y | POLY_YZ | POLY_Y2 | POLY_Y3 | POLY_Y2Z => vy p | POLY_Z | POLY_Z2 | POLY_Z3 | POLY_Z2X => vz p end.
Definition fac2 (t : poly) (p : vec) : R :=
  match t with POLY_1 | POLY_X | POLY_Y | POLY_Z => 1 | POLY_YZ | POLY_XZ => vz p | POLY_XY => vy p
  | POLY_X2 | POLY_X3 | POLY_X2Y => vx p | POLY_Y2 | POLY_Y3 | POLY_Y2Z => vy p | POLY_Z2 | POLY_Z3 | POLY_Z2X => vz p end.
Definition fac3 (t : poly) (p : vec) : R :=
  match t with POLY_X3 | POLY_Z2X => vx p | POLY_Y3 | POLY_X2Y => vy p | POLY_Z3 | POLY_Y2Z => vz p | _ => 1 end.
Lemma mono_fac t p : mono t p = fac1 t p * fac2 t p * fac3 t p.
Proof. destruct t; cbn [mono fac1 fac2 fac3]; ring. Qed.
Definition omono (t : poly) (p0 p1 p2 : vec) : R :=
  moment3 (fac1 t p0) (fac1 t p1) (fac1 t p2) (fac2 t p0) (fac2 t p1) (fac2 t p2) (fac3 t p0) (fac3 t p1) (fac3 t p2).
Lemma fac1_aff t p0 p1 p2 u v : fac1 t (tri_point p0 p1 p2 u v) = aff (fac1 t p0) (fac1 t p1) (fac1 t p2) u v.
Proof. destruct t; unfold tri_point, aff; cbn [fac1 vx vy vz plus3 scal3 minus3]; ring. Qed.
Lemma fac2_aff t p0 p1 p2 u v : fac2 t (tri_point p0 p1 p2 u v) = aff (fac2 t p0) (fac2 t p1) (fac2 t p2) u v.
Proof. destruct t; unfold tri_point, aff; cbn [fac2 vx vy vz plus3 scal3 minus3]; ring. Qed.
Lemma fac3_aff t p0 p1 p2 u v : fac3 t (tri_point p0 p1 p2 u v) = aff (fac3 t p0) (fac3 t p1) (fac3 t p2) u v.
Proof. destruct t; unfold tri_point, aff; cbn [fac3 vx vy vz plus3 scal3 minus3]; ring. Qed.
Lemma over_mono t p0 p1 p2 : over_triangle (mono t) p0 p1 p2 = omono t p0 p1 p2.
Proof.
  unfold over_triangle, omono. apply simplex2. intros u v. rewrite mono_fac, fac1_aff, fac2_aff, fac3_aff. reflexivity.
Qed.

Definition right_integrand (t : poly) : Prop := t <> POLY_YZ /\ t <> POLY_XZ /\ t <> POLY_XY.
Lemma face_integral t p0 p1 p2 : right_integrand t ->
  GetSurfaceIntegral (CalcFacePolynomialIntegrals p0 p1 p2) t = surface_integral (mono t) p0 p1 p2.
Proof.
  intros (N1 & N2 & N3). unfold surface_integral. rewrite over_mono. unfold omono, moment3.
  unfold CalcFacePolynomialIntegrals. change (vnorm (vcross (vsub p1 p0) (vsub p2 p0))) with (sqrt (dot3 (area2 p0 p1 p2) (area2 p0 p1 p2))).
  cbv zeta. generalize (sqrt (dot3 (area2 p0 p1 p2) (area2 p0 p1 p2))). intros d.
  destruct t; try congruence; cbn [GetSurfaceIntegral i1 ix iy iz ix2 iy2 iz2 ix3 iy3 iz3 ix2y iy2z iz2x fac1 fac2 fac3 vadd vmulc vx vy vz]; field.
Qed.
(** Right formula of the mixed integrals *)
Lemma mixed_integral p0 p1 p2 : over_triangle (mono POLY_XZ) p0 p1 p2 =
  (vx p0 * vz p0 + vx p1 * vz p1 + vx p2 * vz p2 + (vx p0 + vx p1 + vx p2) * (vz p0 + vz p1 + vz p2)) / 24.
Proof. rewrite over_mono. unfold omono, moment3. cbn [fac1 fac2 fac3]. field. Qed.

(** ** Normal times integral *)
Lemma normal_area p0 p1 p2 : scal3 (sqrt (dot3 (area2 p0 p1 p2) (area2 p0 p1 p2))) (face_normal p0 p1 p2) = area2 p0 p1 p2.
Proof.
  unfold face_normal.
  assert (C : vcross (vsub p2 p1) (vsub p0 p1) = area2 p0 p1 p2) by (unfold area2; apply vec_eq; geo; ring).
  rewrite C. change (vnorm (area2 p0 p1 p2)) with (sqrt (dot3 (area2 p0 p1 p2) (area2 p0 p1 p2))).
  set (a := area2 p0 p1 p2). destruct (Req_EM_T (sqrt (dot3 a a)) 0) as [E|E].
  - rewrite E. assert (D : dot3 a a = 0) by (apply sqrt_eq_0; auto; unfold dot3; nra).
    unfold dot3 in D. destruct a as [x y z]; cbn in *. assert (x = 0) by nra. assert (y = 0) by nra. assert (z = 0) by nra. subst. unfold scal3; cbn. f_equal; ring.
  - destruct a as [x y z]. unfold scal3, vscale; cbn [vx vy vz]. f_equal; field; exact E.
Qed.
Lemma normal_integral t i p0 p1 p2 : right_integrand t ->
  component i (face_normal p0 p1 p2) * GetSurfaceIntegral (CalcFacePolynomialIntegrals p0 p1 p2) t =
  component i (vector_integral (mono t) p0 p1 p2).
Proof.
  intros Ht. rewrite face_integral by exact Ht. unfold surface_integral, vector_integral.
  rewrite <- (normal_area p0 p1 p2) at 3. destruct i as [|[|i]]; cbn [component scal3 vx vy vz]; ring.
Qed.
